(** Rounding errors of the tridiagonal solver [tdma] (C54). *)
From Coq Require Import List Arith ZArith Reals Bool Lra Lia.
From Verif Require Import Base Num Linalg ArithSteps Rounding.
Import ListNotations.
Local Open Scope R_scope.

(** Element types with coordinates in the scalars: the scalars themselves and
    complex numbers, for any arithmetic. *)
Class VecC {A} (N : Num A) (T : Type) (V : Vec A T) := {
  cI : Type;
  cp : cI -> T -> A;
  cp_0 : forall p, cp p v0 = n0;
  cp_add : forall p x y, cp p (vadd x y) = nadd (cp p x) (cp p y);
  cp_sub : forall p x y, cp p (vsub x y) = nsub (cp p x) (cp p y);
  cp_mul : forall p x a, cp p (vmul x a) = nmul (cp p x) a;
  cp_div : forall p x a, cp p (vdiv x a) = ndiv (cp p x) a
}.
#[export] Instance vecC_self {A} (N : Num A) : VecC N A vec_self.
Proof. refine {| cI := unit; cp := fun _ x => x |}; auto. Defined.
#[export] Instance vecC_cplx {A} (N : Num A) : VecC N (cplx A) vec_cplx.
Proof. refine {| cI := bool; cp := fun (b : bool) (x : cplx A) => if b then fst x else snd x |}; intros []; auto. Defined.

Section Real.
Context {u eta : R} {rnd : R -> R} (RN : rounding u eta rnd).

Lemma rnd_0 : rnd 0 = 0.
Proof.
  pose proof (rn_opp _ _ _ RN 0) as H. rewrite Ropp_0 in H. lra.
Qed.
Lemma rnd_abs_le x y : Rabs x <= Rabs y -> rnd y = y -> Rabs (rnd x) <= Rabs y.
Proof.
  intros H Fy. assert (F : rnd (Rabs y) = Rabs y). { unfold Rabs. destruct (Rcase_abs y); auto. rewrite (rn_opp _ _ _ RN), Fy. auto. }
  apply Rabs_le. assert (G : - Rabs y <= x <= Rabs y) by (unfold Rabs in H; unfold Rabs; destruct (Rcase_abs x), (Rcase_abs y); lra).
  destruct G as [G1 G2]. apply (rn_mono _ _ _ RN) in G1, G2. rewrite (rn_opp _ _ _ RN) in G1. rewrite F in *. lra.
Qed.
Lemma rnd_abs_ge x y : Rabs y <= Rabs x -> rnd y = y -> Rabs y <= Rabs (rnd x).
Proof.
  intros H Fy. assert (F : rnd (Rabs y) = Rabs y). { unfold Rabs. destruct (Rcase_abs y); auto. rewrite (rn_opp _ _ _ RN), Fy. auto. }
  destruct (Rle_or_lt 0 x) as [Hx|Hx].
  - rewrite (Rabs_pos_eq x) in H by auto. apply (rn_mono _ _ _ RN) in H. rewrite F in H.
    apply Rle_trans with (1 := H). apply Rle_abs.
  - rewrite (Rabs_left x) in H by auto. apply (rn_mono _ _ _ RN) in H. rewrite F, (rn_opp _ _ _ RN) in H.
    apply Rle_trans with (1 := H). rewrite <- Rabs_Ropp. apply Rle_abs.
Qed.
Lemma rnd_sub x y : rnd x = x -> rnd y = y -> Rabs (rnd (x - y) - (x - y)) <= u * Rabs (x - y).
Proof.
  intros Fx Fy. unfold Rminus at 1 3. apply (rn_sum _ _ _ RN); auto. rewrite (rn_opp _ _ _ RN), Fy. auto.
Qed.
Lemma rnd_sub' x y : rnd x = x -> rnd y = y -> Rabs (rnd (x - y) - (x - y)) <= u * Rabs (rnd (x - y)).
Proof.
  intros Fx Fy. apply (rn_sum' _ _ _ RN x (- y)); auto. rewrite (rn_opp _ _ _ RN), Fy. auto.
Qed.
Lemma rnd_sub_nz x y : rnd x = x -> rnd y = y -> x <> y -> rnd (x - y) <> 0.
Proof.
  intros Fx Fy Hn E. pose proof (rnd_sub x y Fx Fy) as H. rewrite E in H. destruct (rn_u _ _ _ RN).
  replace (0 - (x - y)) with (- (x - y)) in H by ring. rewrite Rabs_Ropp in H.
  assert (0 < Rabs (x - y)) by (apply Rabs_pos_lt; lra). nra.
Qed.

(** One row of the elimination in floating point (l, d, uu the matrix row, wp,
    gp, xp and y the neighbouring entries). *)
Lemma row_err (l d uu b wp gp xp x y m w g : R) :
  Rabs l + Rabs uu <= Rabs d -> Rabs wp <= 1 -> m <> 0 ->
  forall p1 q1 r1 s1 sp,
  rnd p1 = p1 -> rnd l = l -> rnd d = d -> rnd b = b -> rnd q1 = q1 -> rnd g = g -> rnd s1 = s1 -> rnd gp = gp -> rnd sp = sp ->
  p1 = rnd (l * wp) -> m = rnd (d - p1) -> w = rnd (uu / m) ->
  q1 = rnd (gp * l) -> r1 = rnd (b - q1) -> g = rnd (r1 / m) ->
  s1 = rnd (y * w) -> x = rnd (g - s1) ->
  sp = rnd (x * wp) -> xp = rnd (gp - sp) ->
  Rabs (l * xp + d * x + uu * y - b) <=
    12 * u * (Rabs l * Rabs xp + Rabs d * Rabs x + Rabs uu * Rabs y) + 8 * eta * (1 + Rabs d) * (1 + Rabs x + Rabs y).
Proof.
  intros Hdom Hwp Hm p1 q1 r1 s1 sp F1 F0 F2 F3 F4 F5 F6 F7 F8 Ep Em Ew Eq Er Eg Es Ex Esp Exp.
  pose proof (rn_u _ _ _ RN) as [U0 U1]. pose proof (rn_eta _ _ _ RN) as E0.
  assert (Hp1 : Rabs p1 <= Rabs l).
  { rewrite Ep. apply rnd_abs_le; auto. rewrite Rabs_mult. pose proof (Rabs_pos l). nra. }
  pose proof (rn_err _ _ _ RN (l * wp)) as B7. rewrite <- Ep in B7.
  pose proof (rnd_sub' d p1 F2 F1) as B6. rewrite <- Em in B6.
  pose proof (rnd_sub d p1 F2 F1) as B6'. rewrite <- Em in B6'.
  pose proof (rn_err _ _ _ RN (uu / m)) as B8. rewrite <- Ew in B8.
  pose proof (rn_err _ _ _ RN (gp * l)) as B5. rewrite <- Eq in B5.
  pose proof (rnd_sub' b q1 F3 F4) as B4. rewrite <- Er in B4.
  pose proof (rn_err' _ _ _ RN (r1 / m)) as B3. rewrite <- Eg in B3.
  pose proof (rn_err _ _ _ RN (y * w)) as B2. rewrite <- Es in B2.
  pose proof (rnd_sub' g s1 F5 F6) as B1. rewrite <- Ex in B1.
  pose proof (rn_err _ _ _ RN (x * wp)) as B2p. rewrite <- Esp in B2p.
  pose proof (rnd_sub' gp sp F7 F8) as B1p. rewrite <- Exp in B1p.
  clear F0 F1 F2 F3 F4 F5 F6 F7 F8 Ep Em Ew Eq Er Eg Es Ex Esp Exp.
  set (e7 := p1 - l * wp) in *. set (e6 := m - (d - p1)) in *. set (e8 := w - uu / m) in *.
  set (e5 := q1 - gp * l) in *. set (e4 := r1 - (b - q1)) in *. set (e3 := g - r1 / m) in *.
  set (e2 := s1 - y * w) in *. set (e1 := x - (g - s1)) in *. set (e2p := sp - x * wp) in *. set (e1p := xp - (gp - sp)) in *.
  assert (ID : l * xp + d * x + uu * y - b = x * (e7 - e6) - m * e8 * y + m * e1 - m * e2 + l * e1p - l * e2p - e5 + e4 + m * e3).
  { unfold e1, e2, e3, e4, e5, e6, e7, e8, e1p, e2p. field. auto. }
  assert (Ir : r1 = m * g - m * e3) by (unfold e3; field; auto).
  assert (Imw : m * w = uu + m * e8) by (unfold e8; field; auto).
  assert (Ig : g = x + y * w - e1 + e2) by (unfold e1, e2; ring).
  assert (Igp : gp = xp + x * wp - e1p + e2p) by (unfold e1p, e2p; ring).
  assert (Im : m = d - l * wp - e7 + e6) by (unfold e6, e7; ring).
  assert (HM : Rabs m <= 65 / 32 * Rabs d).
  { assert (Rabs (d - p1) <= 2 * Rabs d). { unfold Rminus. eapply Rle_trans; [apply Rabs_triang|]. rewrite Rabs_Ropp. pose proof (Rabs_pos uu). lra. }
    assert (Rabs m <= Rabs (d - p1) + Rabs (m - (d - p1))). { replace m with ((d - p1) + (m - (d - p1))) at 1 by ring. apply Rabs_triang. }
    pose proof (Rabs_pos (d - p1)). assert (u * Rabs (d - p1) <= / 64 * Rabs (d - p1)) by (apply Rmult_le_compat_r; auto). fold e6 in H0. lra. }
  rewrite ID. clear ID Im. clearbody e1 e2 e3 e4 e5 e6 e7 e8 e1p e2p. clear s1 sp q1.
  (* absolute values *)
  assert (A8 : Rabs m * Rabs e8 <= u * Rabs uu + eta * Rabs m).
  { assert (Rabs m * Rabs (uu / m) = Rabs uu). { rewrite <- Rabs_mult. f_equal. field. auto. }
    pose proof (Rabs_pos m). nra. }
  clear B8. 
  assert (AW : Rabs m * Rabs w <= Rabs uu + Rabs m * Rabs e8).
  { rewrite <- !Rabs_mult, Imw. apply Rabs_triang. }
  rewrite Rabs_mult in B2, B2p, B5, B7.
  assert (AG : Rabs g <= Rabs x + Rabs y * Rabs w + Rabs e1 + Rabs e2).
  { rewrite Ig at 1. rewrite <- Rabs_mult. eapply Rle_trans; [apply Rabs_triang|]. apply Rplus_le_compat_r. unfold Rminus.
    eapply Rle_trans; [apply Rabs_triang|]. rewrite Rabs_Ropp. apply Rplus_le_compat_r. apply Rabs_triang. }
  assert (AGp : Rabs gp <= Rabs xp + Rabs x * Rabs wp + Rabs e1p + Rabs e2p).
  { rewrite Igp at 1. rewrite <- Rabs_mult. eapply Rle_trans; [apply Rabs_triang|]. apply Rplus_le_compat_r. unfold Rminus.
    eapply Rle_trans; [apply Rabs_triang|]. rewrite Rabs_Ropp. apply Rplus_le_compat_r. apply Rabs_triang. }
  assert (AR : Rabs r1 <= Rabs m * Rabs g + Rabs m * Rabs e3).
  { rewrite Ir at 1. rewrite <- !Rabs_mult. unfold Rminus. eapply Rle_trans; [apply Rabs_triang|]. rewrite Rabs_Ropp. lra. }
  assert (TR : Rabs (x * (e7 - e6) - m * e8 * y + m * e1 - m * e2 + l * e1p - l * e2p - e5 + e4 + m * e3) <=
    Rabs x * (Rabs e7 + Rabs e6) + Rabs m * Rabs e8 * Rabs y + Rabs m * Rabs e1 + Rabs m * Rabs e2 + Rabs l * Rabs e1p + Rabs l * Rabs e2p + Rabs e5 + Rabs e4 + Rabs m * Rabs e3).
  { rewrite <- !Rabs_mult. unfold Rminus.
    repeat (eapply Rle_trans; [apply Rabs_triang|]; apply Rplus_le_compat; [|rewrite ?Rabs_Ropp; apply Rle_refl]).
    rewrite Rabs_mult. apply Rmult_le_compat_l. apply Rabs_pos. eapply Rle_trans; [apply Rabs_triang|]. rewrite Rabs_Ropp. lra. }
  eapply Rle_trans; [exact TR|]. clear TR Ir Imw Ig Igp B6' Hp1.
  generalize (Rabs_pos l) (Rabs_pos d) (Rabs_pos uu) (Rabs_pos x) (Rabs_pos y) (Rabs_pos xp) (Rabs_pos m) (Rabs_pos w) (Rabs_pos wp)
    (Rabs_pos g) (Rabs_pos gp) (Rabs_pos r1) (Rabs_pos e1) (Rabs_pos e2) (Rabs_pos e3) (Rabs_pos e4) (Rabs_pos e5) (Rabs_pos e6) (Rabs_pos e7) (Rabs_pos e8)
    (Rabs_pos e1p) (Rabs_pos e2p).
  revert Hdom Hwp B1 B2 B3 B4 B5 B6 B7 B1p B2p A8 AW AG AGp AR HM. clear Hm.
  generalize (Rabs l) (Rabs d) (Rabs uu) (Rabs x) (Rabs y) (Rabs xp) (Rabs m) (Rabs w) (Rabs wp) (Rabs g) (Rabs gp) (Rabs r1)
    (Rabs e1) (Rabs e2) (Rabs e3) (Rabs e4) (Rabs e5) (Rabs e6) (Rabs e7) (Rabs e8) (Rabs e1p) (Rabs e2p).
  clear - U0 U1 E0. intros L D U X Y P M W Wp G Gp R1 a1 a2 a3 a4 a5 a6 a7 a8 a1p a2p. intros.
  assert (DX : 0 <= D * X) by (apply Rmult_le_pos; auto). assert (UY : 0 <= U * Y) by (apply Rmult_le_pos; auto).
  assert (LP : 0 <= L * P) by (apply Rmult_le_pos; auto). assert (DY : 0 <= D * Y) by (apply Rmult_le_pos; auto).
  assert (LX : 0 <= L * X <= D * X) by (split; [apply Rmult_le_pos; auto|apply Rmult_le_compat_r; lra]).
  assert (eD : 0 <= eta * D) by (apply Rmult_le_pos; auto). assert (eDY : 0 <= eta * D * Y) by (apply Rmult_le_pos; auto).
  assert (eX : 0 <= eta * X) by (apply Rmult_le_pos; auto). assert (eY : 0 <= eta * Y) by (apply Rmult_le_pos; auto).
  assert (eDX : 0 <= eta * D * X) by (apply Rmult_le_pos; auto).
  assert (LD : L <= D) by lra.
  assert (eM : eta * M <= 65 / 32 * (eta * D)) by nra.
  assert (N8 : M * a8 <= u * U + 65 / 32 * (eta * D)) by lra.
  assert (NW : M * W <= 65 / 64 * U + 65 / 32 * (eta * D)) by nra.
  assert (N1 : M * a1 <= u * (65 / 32 * (D * X))).
  { apply Rle_trans with (M * (u * X)). apply Rmult_le_compat_l; auto. 
    replace (M * (u * X)) with (u * (M * X)) by ring. apply Rmult_le_compat_l; auto. nra. }
  assert (NWY : Y * (M * W) <= 65 / 64 * (U * Y) + 65 / 32 * (eta * D * Y)).
  { apply Rle_trans with (Y * (65 / 64 * U + 65 / 32 * (eta * D))). apply Rmult_le_compat_l; auto. lra. }
  assert (uU : 0 <= u * (U * Y)) by (apply Rmult_le_pos; auto). assert (uD : 0 <= u * (D * X)) by (apply Rmult_le_pos; auto).
  assert (uP : 0 <= u * (L * P)) by (apply Rmult_le_pos; auto). assert (uLX : u * (L * X) <= u * (D * X)) by (apply Rmult_le_compat_l; lra).
  assert (ueDY : u * (eta * D * Y) <= / 64 * (eta * D * Y)) by (apply Rmult_le_compat_r; auto).
  assert (ueD : u * (eta * D) <= / 64 * (eta * D)) by (apply Rmult_le_compat_r; auto).
  assert (uu1 : u * (U * Y) <= / 64 * (U * Y)) by (apply Rmult_le_compat_r; auto).
  assert (uu2 : u * (D * X) <= / 64 * (D * X)) by (apply Rmult_le_compat_r; auto).
  assert (uu3 : u * (L * P) <= / 64 * (L * P)) by (apply Rmult_le_compat_r; auto).
  assert (N2 : M * a2 <= u * (65 / 64 * (U * Y)) + 65 / 2048 * (eta * D * Y) + 65 / 32 * (eta * D)).
  { apply Rle_trans with (M * (u * (Y * W) + eta)). apply Rmult_le_compat_l; auto.
    replace (M * (u * (Y * W) + eta)) with (u * (Y * (M * W)) + eta * M) by ring.
    assert (u * (Y * (M * W)) <= u * (65 / 64 * (U * Y) + 65 / 32 * (eta * D * Y))) by (apply Rmult_le_compat_l; auto). lra. }
  assert (MX : M * X <= 65 / 32 * (D * X)). { replace (65 / 32 * (D * X)) with (65 / 32 * D * X) by ring. apply Rmult_le_compat_r; auto. }
  assert (NG : M * G <= 4225 / 2048 * (D * X) + 4225 / 4096 * (U * Y) + 17 / 8 * (eta * D * Y) + 65 / 32 * (eta * D)).
  { apply Rle_trans with (M * (X + Y * W + a1 + a2)). apply Rmult_le_compat_l; auto.
    replace (M * (X + Y * W + a1 + a2)) with (M * X + Y * (M * W) + M * a1 + M * a2) by ring. lra. }
  assert (uNG : u * (M * G) <= 4225 / 2048 * (u * (D * X)) + 4225 / 4096 * (u * (U * Y)) + 17 / 512 * (eta * D * Y) + 65 / 2048 * (eta * D)).
  { apply Rle_trans with (u * (4225 / 2048 * (D * X) + 4225 / 4096 * (U * Y) + 17 / 8 * (eta * D * Y) + 65 / 32 * (eta * D))). apply Rmult_le_compat_l; auto. lra. }
  assert (PG : 0 <= M * G) by (apply Rmult_le_pos; auto).
  assert (N3 : M * a3 <= u * (M * G) + 65 / 32 * (eta * D)).
  { apply Rle_trans with (M * (u * G + eta)). apply Rmult_le_compat_l; auto. lra. }
  assert (N4 : a4 <= 65 / 64 * (u * (M * G)) + 65 / 2048 * (eta * D)).
  { apply Rle_trans with (1 := B4). apply Rle_trans with (u * (M * G + (u * (M * G) + 65 / 32 * (eta * D)))). apply Rmult_le_compat_l; lra.
    assert (u * (u * (M * G)) <= / 64 * (u * (M * G))). { apply Rmult_le_compat_r; auto. apply Rmult_le_pos; auto. } lra. }
  assert (N7 : X * (a7 + a6) <= u * (L * X) + eta * X + 65 / 32 * (u * (D * X))).
  { apply Rle_trans with (X * ((u * L + eta) + u * M)).
    - apply Rmult_le_compat_l; auto. assert (u * (L * Wp) <= u * L). { apply Rmult_le_compat_l; auto. rewrite <- (Rmult_1_r L) at 2. apply Rmult_le_compat_l; auto. } lra.
    - assert (u * (M * X) <= u * (65 / 32 * (D * X))) by (apply Rmult_le_compat_l; auto). lra. }
  assert (N8Y : M * a8 * Y <= u * (U * Y) + 65 / 32 * (eta * D * Y)).
  { apply Rle_trans with ((u * U + 65 / 32 * (eta * D)) * Y). apply Rmult_le_compat_r; auto. lra. }
  assert (N1p : L * a1p <= u * (L * P)). { apply Rle_trans with (L * (u * P)). apply Rmult_le_compat_l; auto. lra. }
  assert (Xw : X * Wp <= X). { rewrite <- (Rmult_1_r X) at 2. apply Rmult_le_compat_l; auto. }
  assert (Pw : 0 <= X * Wp) by (apply Rmult_le_pos; auto).
  assert (uXw : u * (X * Wp) <= u * X) by (apply Rmult_le_compat_l; auto).
  assert (eL : eta * L <= eta * D) by (apply Rmult_le_compat_l; auto).
  assert (N2p : L * a2p <= u * (L * X) + eta * D). { apply Rle_trans with (L * (u * X + eta)). apply Rmult_le_compat_l; lra. lra. }
  assert (NP : Gp * L <= 65 / 64 * (L * P) + 65 / 64 * (L * X) + eta * D).
  { apply Rle_trans with ((P + X + u * P + (u * X + eta)) * L). apply Rmult_le_compat_r; lra.
    replace ((P + X + u * P + (u * X + eta)) * L) with (L * P + L * X + u * (L * P) + u * (L * X) + eta * L) by ring.
    assert (u * (L * X) <= / 64 * (L * X)) by (apply Rmult_le_compat_r; lra). lra. }
  assert (N5 : a5 <= 65 / 64 * (u * (L * P)) + 65 / 64 * (u * (L * X)) + / 64 * (eta * D) + eta).
  { assert (u * (Gp * L) <= u * (65 / 64 * (L * P) + 65 / 64 * (L * X) + eta * D)) by (apply Rmult_le_compat_l; auto). lra. }
  replace (12 * u * (L * P + D * X + U * Y)) with (12 * (u * (L * P)) + 12 * (u * (D * X)) + 12 * (u * (U * Y))) by ring.
  replace (8 * eta * (1 + D) * (1 + X + Y)) with (8 * eta + 8 * (eta * X) + 8 * (eta * Y) + 8 * (eta * D) + 8 * (eta * D * X) + 8 * (eta * D * Y)) by ring.
  lra.
Qed.
End Real.

Section Tdma.
Context {A : Type} {N : Num A} {u eta : R} {rnd : R -> R} {zmax : Z} {inr : R -> Prop} {fin : A -> Prop} {val : A -> R}
  (FA : float_arith N u eta rnd zmax inr fin val) {T : Type} {V : Vec A T} {VC : VecC N T V}.

Lemma fa_rnd1 : rnd 1 = 1.
Proof. destruct (fa_1 _ _ _ _ _ _ _ _ FA) as [F E]. rewrite <- E. apply (fa_float _ _ _ _ _ _ _ _ FA); auto. Qed.
Lemma inr_1 x : Rabs x <= 1 -> inr x.
Proof.
  intros H. apply (fa_inr _ _ _ _ _ _ _ _ FA) with (IZR 1). rewrite (Rabs_pos_eq 1) by lra. auto.
  apply (fa_inrz _ _ _ _ _ _ _ _ FA). pose proof (fa_zmax _ _ _ _ _ _ _ _ FA). cbn. lia.
Qed.

(** The rows of a tridiagonal matrix with offsets -2, 0, +2 and n rows. *)
Definition rlo (l2 : list A) (j : nat) : R := if j <? 2 then 0 else val l2.[j - 2].
Definition rup (n : nat) (u2 : list A) (j : nat) : R := if j + 2 <? n then val u2.[j] else 0.

Section Run.
Variables (l2 d0 u2 : list A) (n : nat).
Hypothesis Hn : (2 < n)%nat.
Hypothesis Fl : forall j, (j < n - 2)%nat -> fin l2.[j].
Hypothesis Fu : forall j, (j < n - 2)%nat -> fin u2.[j].
Hypothesis Fd : forall j, (j < n)%nat -> fin d0.[j] /\ inr (4 * val d0.[j]).
Hypothesis Dom : forall j, (j < n)%nat -> Rabs (rlo l2 j) + Rabs (rup n u2 j) <= Rabs (val d0.[j]) /\ Rabs (rlo l2 j) < Rabs (val d0.[j]).

Definition wprev (w : list A) (j : nat) : R := if j <? 2 then 0 else val w.[j - 2].
Lemma rlo_float j : (j < n)%nat -> rnd (rlo l2 j) = rlo l2 j.
Proof.
  intros. unfold rlo. destruct (Nat.ltb_spec j 2). apply (rnd_0 (fa_rnd _ _ _ _ _ _ _ _ FA)).
  apply (fa_float _ _ _ _ _ _ _ _ FA), Fl. lia.
Qed.
Lemma rup_float j : (j < n)%nat -> rnd (rup n u2 j) = rup n u2 j.
Proof.
  intros. unfold rup. destruct (Nat.ltb_spec (j + 2) n). 2: apply (rnd_0 (fa_rnd _ _ _ _ _ _ _ _ FA)).
  apply (fa_float _ _ _ _ _ _ _ _ FA), Fu. lia.
Qed.

Lemma pivots w : (forall j, (j < n - 2)%nat -> tdma_w l2 d0 u2 w j) ->
  forall j, (j < n)%nat ->
  fin (piv l2 d0 w j) /\ val (piv l2 d0 w j) <> 0 /\
  val (piv l2 d0 w j) = rnd (val d0.[j] - rnd (rlo l2 j * wprev w j)) /\ Rabs (wprev w j) <= 1 /\
  ((j < n - 2)%nat -> fin w.[j] /\ val w.[j] = rnd (val u2.[j] / val (piv l2 d0 w j)) /\ Rabs (val w.[j]) <= 1).
Proof.
  intros HW. pose proof (fa_rnd _ _ _ _ _ _ _ _ FA) as RN. pose proof (rn_u _ _ _ RN) as [U0 U1].
  intros j. induction j as [j IH] using lt_wf_ind. intros Hj. destruct (Dom j Hj) as [D1 D2]. destruct (Fd j Hj) as [Fdj Id].
  pose proof (fa_float _ _ _ _ _ _ _ _ FA _ Fdj) as Rd. pose proof (rlo_float j Hj) as Rl.
  (* the pivot *)
  assert (WP : Rabs (wprev w j) <= 1 /\ (j < 2 \/ fin w.[j - 2])%nat).
  { unfold wprev. destruct (Nat.ltb_spec j 2). rewrite Rabs_R0. split; [lra|auto].
    destruct (IH (j - 2)%nat ltac:(lia) ltac:(lia)) as (_ & _ & _ & _ & W). destruct W as (W1 & _ & W2). lia. auto. }
  destruct WP as [WP WF].
  assert (LW : Rabs (rnd (rlo l2 j * wprev w j)) <= Rabs (rlo l2 j)).
  { apply (rnd_abs_le RN); auto. rewrite Rabs_mult. pose proof (Rabs_pos (rlo l2 j)). nra. }
  assert (PV : fin (piv l2 d0 w j) /\ val (piv l2 d0 w j) = rnd (val d0.[j] - rnd (rlo l2 j * wprev w j))).
  { unfold piv, wprev, rlo in *. destruct (Nat.ltb_spec j 2).
    - split; auto. rewrite Rmult_0_l, (rnd_0 RN), Rminus_0_r. auto.
    - destruct WF as [|WF]; [lia|].
      assert (Fm : fin (nmul l2.[j - 2] w.[j - 2])).
      { apply (fa_mulF _ _ _ _ _ _ _ _ FA); auto. apply Fl; lia. apply (fa_inr _ _ _ _ _ _ _ _ FA) with (2 := Id).
        rewrite Rabs_mult, (Rabs_pos_eq 4) by lra. pose proof (Rabs_pos (val d0.[j])). lra. }
      destruct (fa_mul _ _ _ _ _ _ _ _ FA _ _ Fm) as (_ & _ & Em).
      assert (Fs : fin (nsub d0.[j] (nmul l2.[j - 2] w.[j - 2]))).
      { apply (fa_subF _ _ _ _ _ _ _ _ FA); auto. rewrite Em. apply (fa_inr _ _ _ _ _ _ _ _ FA) with (2 := Id).
        pose proof (rnd_sub RN (val d0.[j]) (rnd (val l2.[j - 2] * val w.[j - 2])) Rd (rn_idem _ _ _ RN _)) as H1.
        set (q := rnd (val l2.[j - 2] * val w.[j - 2])) in *. rewrite Rabs_mult, (Rabs_pos_eq 4) by lra.
        assert (Rabs (val d0.[j] - q) <= 2 * Rabs (val d0.[j])).
        { unfold Rminus. eapply Rle_trans; [apply Rabs_triang|]. rewrite Rabs_Ropp. lra. }
        assert (Rabs (rnd (val d0.[j] - q)) <= Rabs (val d0.[j] - q) + Rabs (rnd (val d0.[j] - q) - (val d0.[j] - q))).
        { replace (rnd (val d0.[j] - q)) with ((val d0.[j] - q) + (rnd (val d0.[j] - q) - (val d0.[j] - q))) at 1 by ring. apply Rabs_triang. }
        pose proof (Rabs_pos (val d0.[j] - q)). nra. }
      split; auto. destruct (fa_sub _ _ _ _ _ _ _ _ FA _ _ Fs) as (_ & _ & Es). rewrite Es, Em. auto. }
  destruct PV as [PF PV].
  assert (NZ : val (piv l2 d0 w j) <> 0).
  { rewrite PV. apply (rnd_sub_nz RN); auto. apply (rn_idem _ _ _ RN). intros E. rewrite <- E in LW. lra. }
  split; [auto|]. split; [auto|]. split; [auto|]. split; [auto|].
  intros Hj2. pose proof (HW j Hj2) as E. unfold tdma_w in E.
  assert (UP : Rabs (val u2.[j]) <= Rabs (val (piv l2 d0 w j))).
  { rewrite PV. apply (rnd_abs_ge RN). 2: apply (fa_float _ _ _ _ _ _ _ _ FA), Fu; auto.
    assert (RU : rup n u2 j = val u2.[j]). { unfold rup. destruct (Nat.ltb_spec (j + 2) n); auto; lia. } rewrite RU in D1.
    set (q := rnd (rlo l2 j * wprev w j)) in *. pose proof (Rabs_triang_inv (val d0.[j]) q). lra. }
  assert (Q : Rabs (val u2.[j] / val (piv l2 d0 w j)) <= Rabs 1).
  { rewrite (Rabs_pos_eq 1) by lra. unfold Rdiv. rewrite Rabs_mult, Rabs_inv. assert (0 < Rabs (val (piv l2 d0 w j))) by (apply Rabs_pos_lt; auto).
    apply Rmult_le_reg_r with (Rabs (val (piv l2 d0 w j))); auto. rewrite Rmult_assoc, Rinv_l by lra. lra. }
  pose proof (rnd_abs_le RN _ _ Q fa_rnd1) as Q'. rewrite (Rabs_pos_eq 1) in Q' by lra.
  assert (Fw : fin w.[j]). { rewrite E. apply (fa_divF _ _ _ _ _ _ _ _ FA); auto. apply inr_1; auto. }
  split; auto. rewrite E in Fw. destruct (fa_div _ _ _ _ _ _ _ _ FA _ _ Fw PF NZ) as [_ Ew]. rewrite E, Ew. auto.
Qed.

Definition X (p : cI) (x : list T) (j : nat) : R := val (cp p x.[j]).
Lemma X_over p x j : (length x <= j)%nat -> X p x j = 0.
Proof. intros. unfold X. rewrite at_over by auto. unfold dflt, dflt_vec. rewrite cp_0. apply (fa_0 _ _ _ _ _ _ _ _ FA). Qed.

Lemma tdma_rows md (rhs x : list T) : length l2 = (n - 2)%nat -> length d0 = n -> length u2 = (n - 2)%nat -> length rhs = n ->
  tdma md l2 d0 u2 rhs = Ok x -> (forall p j, (j < n)%nat -> fin (cp p x.[j])) ->
  length x = n /\ forall p j, (j < n)%nat -> fin (cp p rhs.[j]) /\
  Rabs (rlo l2 j * X p x (j - 2) + val d0.[j] * X p x j + rup n u2 j * X p x (j + 2) - X p rhs j) <=
    12 * u * (Rabs (rlo l2 j) * Rabs (X p x (j - 2)) + Rabs (val d0.[j]) * Rabs (X p x j) + Rabs (rup n u2 j) * Rabs (X p x (j + 2)))
    + 8 * eta * (1 + Rabs (val d0.[j])) * (1 + Rabs (X p x j) + Rabs (X p x (j + 2))).
Proof.
  intros L2 L0 LU LR HT FX. pose proof (tdma_steps md l2 d0 u2 rhs) as W. cbv zeta in W. rewrite LR in W. specialize (W Hn L2 L0 LU).
  rewrite HT in W. cbn [wp] in W. destruct W as (Lx & w & g & Lw & Lg & HW & HG & HX). split; auto. intros p.
  pose proof (fa_rnd _ _ _ _ _ _ _ _ FA) as RN. pose proof (pivots w HW) as PV.
  pose proof (fa_float _ _ _ _ _ _ _ _ FA) as FF.
  (* back substitution *)
  assert (SX : forall j, (j < n)%nat -> fin (cp p g.[j]) /\ exists s, rnd s = s /\
     s = rnd (X p x (j + 2) * (if j + 2 <? n then val w.[j] else 0)) /\ X p x j = rnd (X p g j - s)).
  { intros j Hj. pose proof (FX p j Hj) as F. pose proof (HX j Hj) as E. unfold tdma_x in E. unfold X at 2 3. rewrite E in F |- *. clear E.
    destruct (Nat.ltb_spec (j + 2) n).
    - rewrite cp_sub in F |- *. destruct (fa_sub _ _ _ _ _ _ _ _ FA _ _ F) as (F1 & F2 & ->). rewrite cp_mul in F2 |- *.
      destruct (fa_mul _ _ _ _ _ _ _ _ FA _ _ F2) as (_ & _ & Em). split; auto. eexists. split; [|split; [reflexivity|]]. apply (rn_idem _ _ _ RN).
      rewrite Em. reflexivity.
    - split; auto. exists 0. rewrite Rmult_0_r, (rnd_0 RN), Rminus_0_r. split; auto. split; auto. symmetry. apply FF; auto. }
  (* elimination of the right-hand side *)
  assert (SG : forall j, (j < n)%nat -> fin (cp p rhs.[j]) /\ exists q r, rnd q = q /\
     q = rnd ((if j <? 2 then 0 else X p g (j - 2)) * rlo l2 j) /\ r = rnd (X p rhs j - q) /\ X p g j = rnd (r / val (piv l2 d0 w j))).
  { intros j Hj. destruct (SX j Hj) as [F _]. pose proof (HG j Hj) as E. unfold tdma_g in E. unfold X at 3. rewrite E in F |- *. clear E.
    destruct (PV j Hj) as (P1 & P2 & _). rewrite cp_div in F |- *. destruct (fa_div _ _ _ _ _ _ _ _ FA _ _ F P1 P2) as [F1 ->]. clear F.
    unfold rlo. destruct (Nat.ltb_spec j 2).
    - split; auto. exists 0, (X p rhs j). rewrite Rmult_0_r, (rnd_0 RN), Rminus_0_r. split; auto. split; auto. split; [|reflexivity]. symmetry. apply FF; auto.
    - rewrite cp_sub in F1 |- *. destruct (fa_sub _ _ _ _ _ _ _ _ FA _ _ F1) as (F2 & F3 & ->). rewrite cp_mul in F3 |- *.
      destruct (fa_mul _ _ _ _ _ _ _ _ FA _ _ F3) as (_ & _ & Em). split; auto. eexists _, _. split; [|split; [reflexivity|split; [reflexivity|]]]. apply (rn_idem _ _ _ RN).
      rewrite Em. reflexivity. }
  intros j Hj. destruct (SG j Hj) as (Fr & q & r & Fq & Eq & Er & Eg). split; auto.
  destruct (SX j Hj) as (Fg & s & Fs & Es & Ex). destruct (PV j Hj) as (P1 & P2 & P3 & P4 & P5). destruct (Dom j Hj) as [D1 D2].
  destruct (Fd j Hj) as [Fdj _].
  set (xp := if j <? 2 then 0 else X p x (j - 2)).
  assert (EX : exists sp, rnd sp = sp /\ sp = rnd (X p x j * wprev w j) /\ xp = rnd ((if j <? 2 then 0 else X p g (j - 2)) - sp)).
  { unfold xp, wprev. destruct (Nat.ltb_spec j 2).
    - exists 0. rewrite Rmult_0_r, Rminus_0_r, (rnd_0 RN). auto.
    - destruct (SX (j - 2)%nat ltac:(lia)) as (_ & sp & S1 & S2 & S3). replace (j - 2 + 2)%nat with j in S2 by lia.
      destruct (Nat.ltb_spec j n) in S2; [|lia]. eauto. }
  destruct EX as (sp & S1 & S2 & S3).
  assert (EP : rlo l2 j * X p x (j - 2) = rlo l2 j * xp /\ Rabs (rlo l2 j) * Rabs (X p x (j - 2)) = Rabs (rlo l2 j) * Rabs xp).
  { unfold xp, rlo. destruct (Nat.ltb_spec j 2); auto. rewrite Rabs_R0. split; ring. }
  destruct EP as [-> ->].
  assert (EW : (if j + 2 <? n then val w.[j] else 0) = rnd (rup n u2 j / val (piv l2 d0 w j))).
  { unfold rup. destruct (Nat.ltb_spec (j + 2) n). apply P5; lia. unfold Rdiv. rewrite Rmult_0_l, (rnd_0 RN). auto. }
  rewrite EW in Es.
  refine (row_err RN (rlo l2 j) (val d0.[j]) (rup n u2 j) (X p rhs j) (wprev w j) (if j <? 2 then 0 else X p g (j - 2)) xp (X p x j) (X p x (j + 2))
    (val (piv l2 d0 w j)) _ (X p g j) D1 P4 P2 (rnd (rlo l2 j * wprev w j)) q r s sp _ _ _ _ Fq _ Fs _ S1 eq_refl P3 eq_refl Eq Er Eg Es Ex S2 S3); auto.
  - apply (rn_idem _ _ _ RN).
  - apply rlo_float; auto.
  - apply FF; auto.
  - apply FF; auto.
  - destruct (Nat.ltb_spec j 2). apply (rnd_0 RN). apply FF. destruct (SX (j - 2)%nat ltac:(lia)) as [F _]. auto.
Qed.
End Run.
End Tdma.
