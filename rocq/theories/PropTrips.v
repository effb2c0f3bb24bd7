(** C69: a field of Space1, Space2 or Space3 that is transformed there and back k
    times in f64: the errors add up, they do not multiply. *)
From Coq Require Import List Arith ZArith Reals Bool Lra Lia.
From Flocq Require Import Core BinarySingleNaN.
From Verif Require Import Base Num Linalg Stencils Cheb ChebFacts Compo CompoProofs Fourier FourierF64 FourierFacts FourierProofs Bases BaseLin LibBase NdArray NdArrayFacts AxisFacts AxisProps PropAxis SpaceFacts SpaceBases SpaceStages Space PropSpace PropSpace2 PropElements
  ExtLib AnyArith ExtFacts AnyBase PropAny PropAny2 Rounding LibAcc LibIdeal RndCheb RndFft RndR2c RndFinite2 PropRound PropRound2 PropTrans2 RndAxis RndOps RndAxis2 SpaceAcc SpaceAcc2 RndSpace RndSpace2 PropTrans3 PropTrans4 Trips.
Import ListNotations.
Local Open Scope R_scope.
Local Notation u64 := (bpow radix2 (-53)).
Local Notation eta64 := (bpow radix2 (-1075)).

Lemma half_A : bpow radix2 52 * u64 = / 2.
Proof. rewrite <- bpow_plus. reflexivity. Qed.
Lemma top_ok S X : S <= bpow radix2 700 -> X <= 2 * bpow radix2 52 * (bpow radix2 52 / 33 * (bpow radix2 52 / 33)) * (1001 / 1000) -> 2 * S + X <= bpow radix2 800.
Proof.
  intros HS HX. assert (E : 2 * bpow radix2 52 * (bpow radix2 52 / 33 * (bpow radix2 52 / 33)) * (1001 / 1000) <= bpow radix2 160).
  { change (bpow radix2 52) with (IZR (2 ^ 52)). change (bpow radix2 160) with (IZR (2 ^ 160)). cbv [Z.pow Z.pow_pos Pos.iter Z.mul Pos.mul]. lra. }
  assert (E2 : bpow radix2 160 <= bpow radix2 700) by (apply bpow_le; lia).
  assert (E3 : 4 * bpow radix2 700 = bpow radix2 702). { change 4 with (bpow radix2 2). rewrite <- bpow_plus. reflexivity. }
  assert (E4 : bpow radix2 702 <= bpow radix2 800) by (apply bpow_le; lia). pose proof (bpow_gt_0 radix2 700). lra.
Qed.
Lemma et_ok zt : 0 <= zt <= 1 -> 0 <= eta64 + zt <= 1001 / 1000.
Proof. intros H. pose proof (bpow_gt_0 radix2 (-1075)). assert (eta64 <= bpow radix2 (-10)) by (apply bpow_le; lia). change (bpow radix2 (-10)) with (/ 1024) in *. lra. Qed.

Lemma pos_3 a b c : 1 <= a -> 1 <= b -> 1 <= c -> 1 <= a * b * c /\ a <= a * b * c.
Proof. intros. assert (1 * 1 <= b * c) by (apply Rmult_le_compat; lra). assert (a * 1 <= a * (b * c)) by (apply Rmult_le_compat_l; lra). rewrite Rmult_assoc. lra. Qed.
Lemma trips_range u A k N kap w c d et : 0 < u -> A * u = / 2 -> u <= w -> 1 <= k -> 1 <= N -> 1 <= kap -> 33 <= c -> 0 <= d <= c -> 0 <= et <= 1001 / 1000 ->
  2 * k * N * (c * kap * w) <= 1 -> 2 * k * N * (d * kap * N ^ 2 * et) <= 2 * A * (A / 33 * (A / 33)) * (1001 / 1000).
Proof.
  intros Hu HA Hw Hk HN Hkap Hc Hd Het H. destruct (pos_3 N k kap HN Hk Hkap) as [Y1 YN]. set (Y := N * k * kap) in *.
  assert (CY : 33 * Y <= c * Y) by (apply Rmult_le_compat_r; lra). assert (CP : 0 <= c * Y) by lra.
  assert (CA : c * Y <= A).
  { apply (Rmult_le_reg_r u); auto. rewrite HA. replace (2 * k * N * (c * kap * w)) with (2 * ((c * Y) * w)) in H by (unfold Y; ring). assert (c * Y * u <= c * Y * w) by (apply Rmult_le_compat_l; lra). lra. }
  replace (2 * k * N * (d * kap * N ^ 2 * et)) with (2 * (d * Y) * (N * N) * et) by (unfold Y; ring).
  assert (DY : 0 <= d * Y <= A). { split. apply Rmult_le_pos; lra. assert (d * Y <= c * Y) by (apply Rmult_le_compat_r; lra). lra. }
  assert (NA : N <= A / 33) by lra. assert (NN : 0 <= N * N <= A / 33 * (A / 33)). { split. apply Rmult_le_pos; lra. apply Rmult_le_compat; lra. }
  apply Rmult_le_compat. apply Rmult_le_pos. lra. apply NN. apply Het. apply Rmult_le_compat. lra. apply NN. lra. apply NN. apply Het.
Qed.
Lemma trips_less k M N c : 0 <= k -> M <= N -> 0 <= c -> 2 * k * M * c <= 2 * k * N * c.
Proof. intros. apply Rmult_le_compat_r; auto. apply Rmult_le_compat_l; lra. Qed.
Lemma prod_ge_1 a b : 1 <= a -> 1 <= b -> 1 <= a * b.
Proof. intros. replace 1 with (1 * 1) by ring. apply Rmult_le_compat; lra. Qed.
Lemma prod_le a b c d : 1 <= a -> 1 <= b -> a <= c -> b <= d -> a * b <= c * d.
Proof. intros. apply Rmult_le_compat; lra. Qed.
Lemma kept_twice {P S T} (b : base_ops P S T) r j z : kept b r j (kept b r j z) = kept b r j z.
Proof. unfold kept. destruct (r && _); reflexivity. Qed.
Lemma kept_close {P S T} (b : base_ops P S T) r j z w : cn (csub (kept b r j z) (kept b r j w)) <= cn (csub z w).
Proof. unfold kept. destruct (r && _); [|lra]. unfold cn, csub. cbn [fst snd nsub num_R]. rewrite Rminus_0_r, Rabs_R0. pose proof (Rabs_pos (snd z - snd w)). lra. Qed.

Theorem C69_space1_values_f64 :
  forall E : ext f64, ext_ok E -> forall dl zt, 0 <= dl <= / 2000 -> 0 <= zt <= 1 ->
  forall r0 P S T (b0 : base_ops P S T) (eP : fel P) (eS : fel S),
  f64_orthogonal E dl zt r0 P S T b0 eP eS ->
  forall (dP : Dflt P) (dS : Dflt S) (dT : Dflt T) zo, zip_ok zo ->
  let sp := mk_space1 b0 in let n0 := len_phys b0 in
  forall a : arr P, proper [n0] a -> (forall i, (i < n0)%nat -> ef eP (get a [i])) ->
  let Sum := rsum n0 (fun i => esize eP (get a [i])) in
  Sum <= bpow radix2 700 ->
  forall q, 2 * INR q * INR n0 * (33 * (dl + bpow radix2 (-53))) <= 1 ->
  exists y, repeat_trip q (fun x => let* c := s1_forward zo sp x in s1_backward zo sp c) a = Ok y /\ proper [n0] y /\
    forall i, (i < n0)%nat -> ef eP (get y [i]) /\
      edist eP (get y [i]) (ev eP (get a [i])) <= 2 * INR q * (33 * (dl + bpow radix2 (-53)) * Sum + 29 * INR n0 ^ 2 * (bpow radix2 (-1075) + zt)).
Proof.
  intros E HE dl zt Hd Hz r0 P S T b0 eP eS H0 dP dS dT zo HZ sp n0 a Pa Fa Sum Sa q HQ.
  assert (KP : 1 <= 1) by lra.
  destruct (orth_good _ _ _ _ _ _ _ _ _ _ H0 (le_1 _ Hd) Hz) as (_ & G0 & _). assert (L0 : (1 <= n0 <= n0)%nat) by (eapply gops_n; exact G0). assert (N0 : 1 <= INR n0) by (apply (le_INR 1); apply L0).
  pose proof N0 as NG. set (N := INR n0) in *.
  set (w := dl + bpow radix2 (-53)) in *. assert (Hu : 0 < bpow radix2 (-53)) by apply bpow_gt_0. assert (Hw : bpow radix2 (-53) <= w) by (unfold w; lra). pose proof (et_ok zt Hz) as Het. set (et := bpow radix2 (-1075) + zt) in *.
  assert (He : 0 <= 33 * 1 * w) by (apply Rmult_le_pos; lra).
  assert (Ht : 0 <= 29 * 1 * N ^ 2 * et) by (apply Rmult_le_pos; [apply Rmult_le_pos; [lra|apply pow_le; lra]|lra]).
  assert (S0 : 0 <= Sum) by (unfold Sum; apply rsum_pos; intros; apply esize_pos).
  assert (HM : 0 <= INR n0 <= N). { unfold N in *; lra. }
  assert (RG : 2 * Sum + 2 * INR q * (INR n0) * (29 * 1 * N ^ 2 * et) <= bpow radix2 800).
  { apply top_ok. exact Sa. destruct q as [|q]; [cbn [INR]; rewrite Rmult_0_r, !Rmult_0_l; change (0 <= 2 * bpow radix2 52 * (bpow radix2 52 / 33 * (bpow radix2 52 / 33)) * (1001 / 1000)); pose proof (bpow_gt_0 radix2 52); repeat apply Rmult_le_pos; lra|].
    eapply Rle_trans; [apply (trips_less _ _ N); [apply pos_INR|apply HM|exact Ht]|]. apply (trips_range (bpow radix2 (-53)) (bpow radix2 52) _ N (1) w 33 29 et); auto. apply half_A. rewrite S_INR; pose proof (pos_INR q); lra. lra. lra.
    rewrite Rmult_1_r; exact HQ. }
  destruct (many_trips (D1 n0) (S1 n0) _ (isum1 n0) (fun x => proper [n0] x /\ (forall i, (i < n0)%nat -> ef eP (get x [i])))
    (fun x p => ev eP (get x [snd p])) (fun _ z => z) ltac:(reflexivity) ltac:(intros; apply Rle_refl) ltac:(intros; apply Rle_refl)
    (33 * 1 * w) (29 * 1 * N ^ 2 * et) (bpow radix2 800) (fun x => let* c := s1_forward zo sp x in s1_backward zo sp c) He Ht ltac:(rewrite ?Rmult_1_l; apply HM)
    ) with (k := q) (x := a) as (y & Ey & [Py Fy] & Ny & Zy).
  - intros x [Px Fx] Sx. destruct (C56_space1_backward_of_forward_f64 E HE dl zt Hd Hz r0 P S T b0 eP eS H0 dP dS dT zo HZ x Px Fx Sx) as (c & y & Ec & Ey & Py & Hy).
    exists y. split. { change sp with (mk_space1 b0). rewrite Ec. exact Ey. } split. { split; [exact Py|]. intros i; intros; apply Hy; auto. }
    intros p Hp. destruct Hp as [_ Hp0]. rewrite ?Rmult_1_r. apply Hy; auto.
  - split; auto.
  - rewrite ?Rmult_1_l. eapply Rle_trans; [|rewrite <- (Rmult_1_r 33) in HQ; exact HQ]. apply trips_less; [apply pos_INR|apply HM|exact He].
  - rewrite ?Rmult_1_l. exact RG.
  - exists y. split; [exact Ey|]. split; [exact Py|]. intros i; intros. split; [apply Fy; auto|].
    destruct q as [|q].
    + rewrite (Zy eq_refl). unfold edist. rewrite !Rminus_diag_eq, Rabs_R0 by reflexivity. cbn [INR]. rewrite Rmult_0_r, Rmult_0_l, Rplus_0_r. apply Rle_refl.
    + pose proof (Ny ltac:(discriminate) (tt, i) ltac:(split; [constructor|auto])) as G. rewrite !Rmult_1_r in G. exact G.
Qed.
Print Assumptions C69_space1_values_f64.

Theorem C69_space2_values_f64 :
  forall E : ext f64, ext_ok E -> forall dl zt, 0 <= dl <= / 2000 -> 0 <= zt <= 1 ->
  forall r0 r1 P I S T (b0 : base_ops I S T) (b1 : base_ops P I T) (eP : fel P) (eI : fel I) (eS : fel S),
  f64_orthogonal E dl zt r0 I S T b0 eI eS -> f64_orthogonal E dl zt r1 P I T b1 eP eI ->
  forall (dP : Dflt P) (dI : Dflt I) (dS : Dflt S) (dT : Dflt T) zo, zip_ok zo ->
  let sp := mk_space2 b0 b1 in let n0 := len_phys b0 in let n1 := len_phys b1 in
  forall a : arr P, proper [n0; n1] a -> (forall i j, (i < n0)%nat -> (j < n1)%nat -> ef eP (get a [i; j])) ->
  let Sum := rsum n0 (fun i => rsum n1 (fun j => esize eP (get a [i; j]))) in
  Sum <= bpow radix2 700 ->
  forall q, 2 * INR q * (INR n0 * INR n1) * (178 * (dl + bpow radix2 (-53))) <= 1 ->
  exists y, repeat_trip q (fun x => let* c := s2_forward zo sp x in s2_backward zo sp c) a = Ok y /\ proper [n0; n1] y /\
    forall i j, (i < n0)%nat -> (j < n1)%nat -> ef eP (get y [i; j]) /\
      edist eP (get y [i; j]) (ev eP (get a [i; j])) <= 2 * INR q * (178 * (dl + bpow radix2 (-53)) * Sum + 90 * (INR n0 * INR n1) ^ 2 * (bpow radix2 (-1075) + zt)).
Proof.
  intros E HE dl zt Hd Hz r0 r1 P I S T b0 b1 eP eI eS H0 H1 dP dI dS dT zo HZ sp n0 n1 a Pa Fa Sum Sa q HQ.
  assert (KP : 1 <= 1) by lra.
  destruct (orth_good _ _ _ _ _ _ _ _ _ _ H0 (le_1 _ Hd) Hz) as (_ & G0 & _). assert (L0 : (1 <= n0 <= n0)%nat) by (eapply gops_n; exact G0). assert (N0 : 1 <= INR n0) by (apply (le_INR 1); apply L0).
  destruct (orth_good _ _ _ _ _ _ _ _ _ _ H1 (le_1 _ Hd) Hz) as (_ & G1 & _). assert (L1 : (1 <= n1 <= n1)%nat) by (eapply gops_n; exact G1). assert (N1 : 1 <= INR n1) by (apply (le_INR 1); apply L1).
  pose proof (prod_ge_1 _ _ N0 N1) as NG. set (N := INR n0 * INR n1) in *.
  set (w := dl + bpow radix2 (-53)) in *. assert (Hu : 0 < bpow radix2 (-53)) by apply bpow_gt_0. assert (Hw : bpow radix2 (-53) <= w) by (unfold w; lra). pose proof (et_ok zt Hz) as Het. set (et := bpow radix2 (-1075) + zt) in *.
  assert (He : 0 <= 178 * 1 * w) by (apply Rmult_le_pos; lra).
  assert (Ht : 0 <= 90 * 1 * N ^ 2 * et) by (apply Rmult_le_pos; [apply Rmult_le_pos; [lra|apply pow_le; lra]|lra]).
  assert (S0 : 0 <= Sum) by (unfold Sum; apply rsum_pos; intros; apply rsum_pos; intros; apply esize_pos).
  assert (HM : 0 <= INR n0 * INR n1 <= N). { unfold N in *; lra. }
  assert (RG : 2 * Sum + 2 * INR q * (INR n0 * INR n1) * (90 * 1 * N ^ 2 * et) <= bpow radix2 800).
  { apply top_ok. exact Sa. destruct q as [|q]; [cbn [INR]; rewrite Rmult_0_r, !Rmult_0_l; change (0 <= 2 * bpow radix2 52 * (bpow radix2 52 / 33 * (bpow radix2 52 / 33)) * (1001 / 1000)); pose proof (bpow_gt_0 radix2 52); repeat apply Rmult_le_pos; lra|].
    eapply Rle_trans; [apply (trips_less _ _ N); [apply pos_INR|apply HM|exact Ht]|]. apply (trips_range (bpow radix2 (-53)) (bpow radix2 52) _ N (1) w 178 90 et); auto. apply half_A. rewrite S_INR; pose proof (pos_INR q); lra. lra. lra.
    rewrite Rmult_1_r; exact HQ. }
  destruct (many_trips (D2 n0 n1) (S2 n0 n1) _ (isum2 n0 n1) (fun x => proper [n0; n1] x /\ (forall i j, (i < n0)%nat -> (j < n1)%nat -> ef eP (get x [i; j])))
    (fun x p => ev eP (get x [snd (fst p); snd p])) (fun _ z => z) ltac:(reflexivity) ltac:(intros; apply Rle_refl) ltac:(intros; apply Rle_refl)
    (178 * 1 * w) (90 * 1 * N ^ 2 * et) (bpow radix2 800) (fun x => let* c := s2_forward zo sp x in s2_backward zo sp c) He Ht ltac:(rewrite ?Rmult_1_l; apply HM)
    ) with (k := q) (x := a) as (y & Ey & [Py Fy] & Ny & Zy).
  - intros x [Px Fx] Sx. destruct (C56_space2_backward_of_forward_f64 E HE dl zt Hd Hz r0 r1 P I S T b0 b1 eP eI eS H0 H1 dP dI dS dT zo HZ x Px Fx Sx) as (c & y & Ec & Ey & Py & Hy).
    exists y. split. { change sp with (mk_space2 b0 b1). rewrite Ec. exact Ey. } split. { split; [exact Py|]. intros i j; intros; apply Hy; auto. }
    intros p Hp. destruct Hp as [[_ Hp0] Hp1]. rewrite ?Rmult_1_r. apply Hy; auto.
  - split; auto.
  - rewrite ?Rmult_1_l. eapply Rle_trans; [|rewrite <- (Rmult_1_r 178) in HQ; exact HQ]. apply trips_less; [apply pos_INR|apply HM|exact He].
  - rewrite ?Rmult_1_l. exact RG.
  - exists y. split; [exact Ey|]. split; [exact Py|]. intros i j; intros. split; [apply Fy; auto|].
    destruct q as [|q].
    + rewrite (Zy eq_refl). unfold edist. rewrite !Rminus_diag_eq, Rabs_R0 by reflexivity. cbn [INR]. rewrite Rmult_0_r, Rmult_0_l, Rplus_0_r. apply Rle_refl.
    + pose proof (Ny ltac:(discriminate) (tt, i, j) ltac:(split; [split; [constructor|auto]|auto])) as G. rewrite !Rmult_1_r in G. exact G.
Qed.
Print Assumptions C69_space2_values_f64.

Theorem C69_space3_values_f64 :
  forall E : ext f64, ext_ok E -> forall dl zt, 0 <= dl <= / 2000 -> 0 <= zt <= 1 ->
  forall r0 r1 r2 P I J S T (b0 : base_ops J S T) (b1 : base_ops I J T) (b2 : base_ops P I T) (eP : fel P) (eI : fel I) (eJ : fel J) (eS : fel S),
  f64_orthogonal E dl zt r0 J S T b0 eJ eS -> f64_orthogonal E dl zt r1 I J T b1 eI eJ -> f64_orthogonal E dl zt r2 P I T b2 eP eI ->
  forall (dP : Dflt P) (dI : Dflt I) (dJ : Dflt J) (dS : Dflt S) (dT : Dflt T) zo, zip_ok zo ->
  let sp := mk_space3 b0 b1 b2 in let n0 := len_phys b0 in let n1 := len_phys b1 in let n2 := len_phys b2 in
  forall a : arr P, proper [n0; n1; n2] a -> (forall i j k, (i < n0)%nat -> (j < n1)%nat -> (k < n2)%nat -> ef eP (get a [i; j; k])) ->
  let Sum := rsum n0 (fun i => rsum n1 (fun j => rsum n2 (fun k => esize eP (get a [i; j; k])))) in
  Sum <= bpow radix2 700 ->
  forall q, 2 * INR q * (INR n0 * INR n1 * INR n2) * (816 * (dl + bpow radix2 (-53))) <= 1 ->
  exists y, repeat_trip q (fun x => let* c := s3_forward zo sp x in s3_backward zo sp c) a = Ok y /\ proper [n0; n1; n2] y /\
    forall i j k, (i < n0)%nat -> (j < n1)%nat -> (k < n2)%nat -> ef eP (get y [i; j; k]) /\
      edist eP (get y [i; j; k]) (ev eP (get a [i; j; k])) <= 2 * INR q * (816 * (dl + bpow radix2 (-53)) * Sum + 218 * (INR n0 * INR n1 * INR n2) ^ 2 * (bpow radix2 (-1075) + zt)).
Proof.
  intros E HE dl zt Hd Hz r0 r1 r2 P I J S T b0 b1 b2 eP eI eJ eS H0 H1 H2 dP dI dJ dS dT zo HZ sp n0 n1 n2 a Pa Fa Sum Sa q HQ.
  assert (KP : 1 <= 1) by lra.
  destruct (orth_good _ _ _ _ _ _ _ _ _ _ H0 (le_1 _ Hd) Hz) as (_ & G0 & _). assert (L0 : (1 <= n0 <= n0)%nat) by (eapply gops_n; exact G0). assert (N0 : 1 <= INR n0) by (apply (le_INR 1); apply L0).
  destruct (orth_good _ _ _ _ _ _ _ _ _ _ H1 (le_1 _ Hd) Hz) as (_ & G1 & _). assert (L1 : (1 <= n1 <= n1)%nat) by (eapply gops_n; exact G1). assert (N1 : 1 <= INR n1) by (apply (le_INR 1); apply L1).
  destruct (orth_good _ _ _ _ _ _ _ _ _ _ H2 (le_1 _ Hd) Hz) as (_ & G2 & _). assert (L2 : (1 <= n2 <= n2)%nat) by (eapply gops_n; exact G2). assert (N2 : 1 <= INR n2) by (apply (le_INR 1); apply L2).
  pose proof (prod_ge_1 _ _ (prod_ge_1 _ _ N0 N1) N2) as NG. set (N := INR n0 * INR n1 * INR n2) in *.
  set (w := dl + bpow radix2 (-53)) in *. assert (Hu : 0 < bpow radix2 (-53)) by apply bpow_gt_0. assert (Hw : bpow radix2 (-53) <= w) by (unfold w; lra). pose proof (et_ok zt Hz) as Het. set (et := bpow radix2 (-1075) + zt) in *.
  assert (He : 0 <= 816 * 1 * w) by (apply Rmult_le_pos; lra).
  assert (Ht : 0 <= 218 * 1 * N ^ 2 * et) by (apply Rmult_le_pos; [apply Rmult_le_pos; [lra|apply pow_le; lra]|lra]).
  assert (S0 : 0 <= Sum) by (unfold Sum; apply rsum_pos; intros; apply rsum_pos; intros; apply rsum_pos; intros; apply esize_pos).
  assert (HM : 0 <= INR n0 * INR n1 * INR n2 <= N). { unfold N in *; lra. }
  assert (RG : 2 * Sum + 2 * INR q * (INR n0 * INR n1 * INR n2) * (218 * 1 * N ^ 2 * et) <= bpow radix2 800).
  { apply top_ok. exact Sa. destruct q as [|q]; [cbn [INR]; rewrite Rmult_0_r, !Rmult_0_l; change (0 <= 2 * bpow radix2 52 * (bpow radix2 52 / 33 * (bpow radix2 52 / 33)) * (1001 / 1000)); pose proof (bpow_gt_0 radix2 52); repeat apply Rmult_le_pos; lra|].
    eapply Rle_trans; [apply (trips_less _ _ N); [apply pos_INR|apply HM|exact Ht]|]. apply (trips_range (bpow radix2 (-53)) (bpow radix2 52) _ N (1) w 816 218 et); auto. apply half_A. rewrite S_INR; pose proof (pos_INR q); lra. lra. lra.
    rewrite Rmult_1_r; exact HQ. }
  destruct (many_trips (D3 n0 n1 n2) (S3 n0 n1 n2) _ (isum3 n0 n1 n2) (fun x => proper [n0; n1; n2] x /\ (forall i j k, (i < n0)%nat -> (j < n1)%nat -> (k < n2)%nat -> ef eP (get x [i; j; k])))
    (fun x p => ev eP (get x [snd (fst (fst p)); snd (fst p); snd p])) (fun _ z => z) ltac:(reflexivity) ltac:(intros; apply Rle_refl) ltac:(intros; apply Rle_refl)
    (816 * 1 * w) (218 * 1 * N ^ 2 * et) (bpow radix2 800) (fun x => let* c := s3_forward zo sp x in s3_backward zo sp c) He Ht ltac:(rewrite ?Rmult_1_l; apply HM)
    ) with (k := q) (x := a) as (y & Ey & [Py Fy] & Ny & Zy).
  - intros x [Px Fx] Sx. destruct (C56_space3_backward_of_forward_f64 E HE dl zt Hd Hz r0 r1 r2 P I J S T b0 b1 b2 eP eI eJ eS H0 H1 H2 dP dI dJ dS dT zo HZ x Px Fx Sx) as (c & y & Ec & Ey & Py & Hy).
    exists y. split. { change sp with (mk_space3 b0 b1 b2). rewrite Ec. exact Ey. } split. { split; [exact Py|]. intros i j k; intros; apply Hy; auto. }
    intros p Hp. destruct Hp as [[[_ Hp0] Hp1] Hp2]. rewrite ?Rmult_1_r. apply Hy; auto.
  - split; auto.
  - rewrite ?Rmult_1_l. eapply Rle_trans; [|rewrite <- (Rmult_1_r 816) in HQ; exact HQ]. apply trips_less; [apply pos_INR|apply HM|exact He].
  - rewrite ?Rmult_1_l. exact RG.
  - exists y. split; [exact Ey|]. split; [exact Py|]. intros i j k; intros. split; [apply Fy; auto|].
    destruct q as [|q].
    + rewrite (Zy eq_refl). unfold edist. rewrite !Rminus_diag_eq, Rabs_R0 by reflexivity. cbn [INR]. rewrite Rmult_0_r, Rmult_0_l, Rplus_0_r. apply Rle_refl.
    + pose proof (Ny ltac:(discriminate) (tt, i, j, k) ltac:(split; [split; [split; [constructor|auto]|auto]|auto])) as G. rewrite !Rmult_1_r in G. exact G.
Qed.
Print Assumptions C69_space3_values_f64.

(** Coefficients: [kept] is the identity unless the base is real-to-complex. *)

Theorem C69_space1_coefficients_f64 :
  forall E : ext f64, ext_ok E -> forall dl zt, 0 <= dl -> 0 <= zt <= 1 ->
  forall kap r0 P S T (b0 : base_ops P S T) (eP : fel P) (eS : fel S),
  f64_transform E dl zt kap r0 P S T b0 eP eS -> kap * (dl + bpow radix2 (-53)) <= / 2000 ->
  forall (dP : Dflt P) (dS : Dflt S) (dT : Dflt T) zo, zip_ok zo ->
  let sp := mk_space1 b0 in let n0 := len_phys b0 in let m0 := len_spec b0 in
  forall a : arr S, proper [m0] a -> (forall i, (i < m0)%nat -> ef eS (get a [i])) ->
  let Sum := rsum m0 (fun i => esize eS (get a [i])) in
  Sum <= bpow radix2 700 ->
  forall q , (1 <= q)%nat -> 2 * INR q * INR n0 * (63 * kap * (dl + bpow radix2 (-53))) <= 1 ->
  exists y, repeat_trip q (fun x => let* c := s1_backward zo sp x in s1_forward zo sp c) a = Ok y /\ proper [m0] y /\
    forall i, (i < m0)%nat -> ef eS (get y [i]) /\
      edist eS (get y [i]) (kept b0 r0 i (ev eS (get a [i]))) <= 2 * INR q * (63 * kap * (dl + bpow radix2 (-53)) * Sum + 32 * kap * INR n0 ^ 2 * (bpow radix2 (-1075) + zt)).
Proof.
  intros E HE dl zt Hd Hz kap r0 P S T b0 eP eS H0 HK dP dS dT zo HZ sp n0 m0 a Pa Fa Sum Sa q Hq1 HQ.
  pose proof (tr_kap _ _ _ _ _ _ _ _ _ _ _ H0) as KP. pose proof (dl_small dl _ Hd KP HK) as Hdl.
  destruct (tr_good _ _ _ _ _ _ _ _ _ _ _ H0 Hdl Hz) as (_ & K0 & G0). assert (L0 : (1 <= m0 <= n0)%nat) by (eapply gs_n; exact G0). assert (M0 : 1 <= INR m0) by (apply (le_INR 1); lia). assert (MN0 : INR m0 <= INR n0) by (apply le_INR; lia). assert (N0 : 1 <= INR n0) by lra.
  pose proof N0 as NG. set (N := INR n0) in *.
  set (w := dl + bpow radix2 (-53)) in *. assert (Hu : 0 < bpow radix2 (-53)) by apply bpow_gt_0. assert (Hw : bpow radix2 (-53) <= w) by (unfold w; lra). pose proof (et_ok zt Hz) as Het. set (et := bpow radix2 (-1075) + zt) in *.
  assert (He : 0 <= 63 * kap * w) by (apply Rmult_le_pos; lra).
  assert (Ht : 0 <= 32 * kap * N ^ 2 * et) by (apply Rmult_le_pos; [apply Rmult_le_pos; [lra|apply pow_le; lra]|lra]).
  assert (S0 : 0 <= Sum) by (unfold Sum; apply rsum_pos; intros; apply esize_pos).
  assert (HM : 0 <= INR m0 <= N). { split; [pose proof M0; lra|exact MN0]. }
  assert (RG : 2 * Sum + 2 * INR q * (INR m0) * (32 * kap * N ^ 2 * et) <= bpow radix2 800).
  { apply top_ok. exact Sa. destruct q as [|q]; [cbn [INR]; rewrite Rmult_0_r, !Rmult_0_l; change (0 <= 2 * bpow radix2 52 * (bpow radix2 52 / 33 * (bpow radix2 52 / 33)) * (1001 / 1000)); pose proof (bpow_gt_0 radix2 52); repeat apply Rmult_le_pos; lra|].
    eapply Rle_trans; [apply (trips_less _ _ N); [apply pos_INR|apply HM|exact Ht]|]. apply (trips_range (bpow radix2 (-53)) (bpow radix2 52) _ N (kap) w 63 32 et); auto. apply half_A. rewrite S_INR; pose proof (pos_INR q); lra. lra. lra.
     }
  destruct (many_trips (D1 m0) (S1 m0) _ (isum1 m0) (fun x => proper [m0] x /\ (forall i, (i < m0)%nat -> ef eS (get x [i])))
    (fun x p => ev eS (get x [snd p])) (fun p z => kept b0 r0 (snd p) z) ltac:(intros; apply kept_twice) ltac:(intros; apply kept_close) ltac:(intros; apply kept_le)
    (63 * kap * w) (32 * kap * N ^ 2 * et) (bpow radix2 800) (fun x => let* c := s1_backward zo sp x in s1_forward zo sp c) He Ht ltac:(rewrite ?Rmult_1_l; apply HM)
    ) with (k := q) (x := a) as (y & Ey & [Py Fy] & Ny & Zy).
  - intros x [Px Fx] Sx. destruct (C57_space1_forward_of_backward_f64 E HE dl zt Hd Hz kap r0 P S T b0 eP eS H0 HK dP dS dT zo HZ x Px Fx Sx) as (c & y & Ec & Ey & Py & Hy).
    exists y. split. { change sp with (mk_space1 b0). rewrite Ec. exact Ey. } split. { split; [exact Py|]. intros i; intros; apply Hy; auto. }
    intros p Hp. destruct Hp as [_ Hp0]. apply Hy; auto.
  - split; auto.
  - rewrite ?Rmult_1_l. eapply Rle_trans; [|exact HQ]. apply trips_less; [apply pos_INR|apply HM|exact He].
  - rewrite ?Rmult_1_l. exact RG.
  - exists y. split; [exact Ey|]. split; [exact Py|]. intros i; intros. split; [apply Fy; auto|].
    assert (q0 : q <> 0%nat) by lia. exact (Ny q0 (tt, i) ltac:(split; [constructor|auto])).
Qed.
Print Assumptions C69_space1_coefficients_f64.

Theorem C69_space2_coefficients_f64 :
  forall E : ext f64, ext_ok E -> forall dl zt, 0 <= dl -> 0 <= zt <= 1 ->
  forall k0 k1 r0 P I S T (b0 : base_ops I S T) (b1 : base_ops P I T) (eP : fel P) (eI : fel I) (eS : fel S),
  f64_transform E dl zt k0 r0 I S T b0 eI eS -> f64_transform E dl zt k1 false P I T b1 eP eI -> k0 * k1 * (dl + bpow radix2 (-53)) <= / 2000 ->
  forall (dP : Dflt P) (dI : Dflt I) (dS : Dflt S) (dT : Dflt T) zo, zip_ok zo ->
  let sp := mk_space2 b0 b1 in let n0 := len_phys b0 in let n1 := len_phys b1 in let m0 := len_spec b0 in let m1 := len_spec b1 in
  forall a : arr S, proper [m0; m1] a -> (forall i j, (i < m0)%nat -> (j < m1)%nat -> ef eS (get a [i; j])) ->
  let Sum := rsum m0 (fun i => rsum m1 (fun j => esize eS (get a [i; j]))) in
  Sum <= bpow radix2 700 ->
  forall q , (1 <= q)%nat -> 2 * INR q * (INR n0 * INR n1) * (385 * (k0 * k1) * (dl + bpow radix2 (-53))) <= 1 ->
  exists y, repeat_trip q (fun x => let* c := s2_backward zo sp x in s2_forward zo sp c) a = Ok y /\ proper [m0; m1] y /\
    forall i j, (i < m0)%nat -> (j < m1)%nat -> ef eS (get y [i; j]) /\
      edist eS (get y [i; j]) (kept b0 r0 i (ev eS (get a [i; j]))) <= 2 * INR q * (385 * (k0 * k1) * (dl + bpow radix2 (-53)) * Sum + 100 * (k0 * k1) * (INR n0 * INR n1) ^ 2 * (bpow radix2 (-1075) + zt)).
Proof.
  intros E HE dl zt Hd Hz k0 k1 r0 P I S T b0 b1 eP eI eS H0 H1 HK dP dI dS dT zo HZ sp n0 n1 m0 m1 a Pa Fa Sum Sa q Hq1 HQ.
  pose proof (one_le _ _ (tr_kap _ _ _ _ _ _ _ _ _ _ _ H0) (tr_kap _ _ _ _ _ _ _ _ _ _ _ H1)) as KP. pose proof (dl_small dl _ Hd KP HK) as Hdl.
  destruct (tr_good _ _ _ _ _ _ _ _ _ _ _ H0 Hdl Hz) as (_ & K0 & G0). assert (L0 : (1 <= m0 <= n0)%nat) by (eapply gs_n; exact G0). assert (M0 : 1 <= INR m0) by (apply (le_INR 1); lia). assert (MN0 : INR m0 <= INR n0) by (apply le_INR; lia). assert (N0 : 1 <= INR n0) by lra.
  destruct (tr_good _ _ _ _ _ _ _ _ _ _ _ H1 Hdl Hz) as (_ & K1 & G1). assert (L1 : (1 <= m1 <= n1)%nat) by (eapply gs_n; exact G1). assert (M1 : 1 <= INR m1) by (apply (le_INR 1); lia). assert (MN1 : INR m1 <= INR n1) by (apply le_INR; lia). assert (N1 : 1 <= INR n1) by lra.
  pose proof (prod_ge_1 _ _ N0 N1) as NG. set (N := INR n0 * INR n1) in *.
  set (w := dl + bpow radix2 (-53)) in *. assert (Hu : 0 < bpow radix2 (-53)) by apply bpow_gt_0. assert (Hw : bpow radix2 (-53) <= w) by (unfold w; lra). pose proof (et_ok zt Hz) as Het. set (et := bpow radix2 (-1075) + zt) in *.
  assert (He : 0 <= 385 * (k0 * k1) * w) by (apply Rmult_le_pos; lra).
  assert (Ht : 0 <= 100 * (k0 * k1) * N ^ 2 * et) by (apply Rmult_le_pos; [apply Rmult_le_pos; [lra|apply pow_le; lra]|lra]).
  assert (S0 : 0 <= Sum) by (unfold Sum; apply rsum_pos; intros; apply rsum_pos; intros; apply esize_pos).
  assert (HM : 0 <= INR m0 * INR m1 <= N). { split; [pose proof (prod_ge_1 _ _ M0 M1); lra|exact (prod_le _ _ _ _ M0 M1 MN0 MN1)]. }
  assert (RG : 2 * Sum + 2 * INR q * (INR m0 * INR m1) * (100 * (k0 * k1) * N ^ 2 * et) <= bpow radix2 800).
  { apply top_ok. exact Sa. destruct q as [|q]; [cbn [INR]; rewrite Rmult_0_r, !Rmult_0_l; change (0 <= 2 * bpow radix2 52 * (bpow radix2 52 / 33 * (bpow radix2 52 / 33)) * (1001 / 1000)); pose proof (bpow_gt_0 radix2 52); repeat apply Rmult_le_pos; lra|].
    eapply Rle_trans; [apply (trips_less _ _ N); [apply pos_INR|apply HM|exact Ht]|]. apply (trips_range (bpow radix2 (-53)) (bpow radix2 52) _ N ((k0 * k1)) w 385 100 et); auto. apply half_A. rewrite S_INR; pose proof (pos_INR q); lra. lra. lra.
     }
  destruct (many_trips (D2 m0 m1) (S2 m0 m1) _ (isum2 m0 m1) (fun x => proper [m0; m1] x /\ (forall i j, (i < m0)%nat -> (j < m1)%nat -> ef eS (get x [i; j])))
    (fun x p => ev eS (get x [snd (fst p); snd p])) (fun p z => kept b0 r0 (snd (fst p)) z) ltac:(intros; apply kept_twice) ltac:(intros; apply kept_close) ltac:(intros; apply kept_le)
    (385 * (k0 * k1) * w) (100 * (k0 * k1) * N ^ 2 * et) (bpow radix2 800) (fun x => let* c := s2_backward zo sp x in s2_forward zo sp c) He Ht ltac:(rewrite ?Rmult_1_l; apply HM)
    ) with (k := q) (x := a) as (y & Ey & [Py Fy] & Ny & Zy).
  - intros x [Px Fx] Sx. destruct (C57_space2_forward_of_backward_f64 E HE dl zt Hd Hz k0 k1 r0 P I S T b0 b1 eP eI eS H0 H1 HK dP dI dS dT zo HZ x Px Fx Sx) as (c & y & Ec & Ey & Py & Hy).
    exists y. split. { change sp with (mk_space2 b0 b1). rewrite Ec. exact Ey. } split. { split; [exact Py|]. intros i j; intros; apply Hy; auto. }
    intros p Hp. destruct Hp as [[_ Hp0] Hp1]. apply Hy; auto.
  - split; auto.
  - rewrite ?Rmult_1_l. eapply Rle_trans; [|exact HQ]. apply trips_less; [apply pos_INR|apply HM|exact He].
  - rewrite ?Rmult_1_l. exact RG.
  - exists y. split; [exact Ey|]. split; [exact Py|]. intros i j; intros. split; [apply Fy; auto|].
    assert (q0 : q <> 0%nat) by lia. exact (Ny q0 (tt, i, j) ltac:(split; [split; [constructor|auto]|auto])).
Qed.
Print Assumptions C69_space2_coefficients_f64.

Theorem C69_space3_coefficients_f64 :
  forall E : ext f64, ext_ok E -> forall dl zt, 0 <= dl -> 0 <= zt <= 1 ->
  forall k0 k1 k2 r0 P I J S T (b0 : base_ops J S T) (b1 : base_ops I J T) (b2 : base_ops P I T) (eP : fel P) (eI : fel I) (eJ : fel J) (eS : fel S),
  f64_transform E dl zt k0 r0 J S T b0 eJ eS -> f64_transform E dl zt k1 false I J T b1 eI eJ -> f64_transform E dl zt k2 false P I T b2 eP eI -> k0 * k1 * k2 * (dl + bpow radix2 (-53)) <= / 2000 ->
  forall (dP : Dflt P) (dI : Dflt I) (dJ : Dflt J) (dS : Dflt S) (dT : Dflt T) zo, zip_ok zo ->
  let sp := mk_space3 b0 b1 b2 in let n0 := len_phys b0 in let n1 := len_phys b1 in let n2 := len_phys b2 in let m0 := len_spec b0 in let m1 := len_spec b1 in let m2 := len_spec b2 in
  forall a : arr S, proper [m0; m1; m2] a -> (forall i j k, (i < m0)%nat -> (j < m1)%nat -> (k < m2)%nat -> ef eS (get a [i; j; k])) ->
  let Sum := rsum m0 (fun i => rsum m1 (fun j => rsum m2 (fun k => esize eS (get a [i; j; k])))) in
  Sum <= bpow radix2 700 ->
  forall q , (1 <= q)%nat -> 2 * INR q * (INR n0 * INR n1 * INR n2) * (2027 * (k0 * k1 * k2) * (dl + bpow radix2 (-53))) <= 1 ->
  exists y, repeat_trip q (fun x => let* c := s3_backward zo sp x in s3_forward zo sp c) a = Ok y /\ proper [m0; m1; m2] y /\
    forall i j k, (i < m0)%nat -> (j < m1)%nat -> (k < m2)%nat -> ef eS (get y [i; j; k]) /\
      edist eS (get y [i; j; k]) (kept b0 r0 i (ev eS (get a [i; j; k]))) <= 2 * INR q * (2027 * (k0 * k1 * k2) * (dl + bpow radix2 (-53)) * Sum + 242 * (k0 * k1 * k2) * (INR n0 * INR n1 * INR n2) ^ 2 * (bpow radix2 (-1075) + zt)).
Proof.
  intros E HE dl zt Hd Hz k0 k1 k2 r0 P I J S T b0 b1 b2 eP eI eJ eS H0 H1 H2 HK dP dI dJ dS dT zo HZ sp n0 n1 n2 m0 m1 m2 a Pa Fa Sum Sa q Hq1 HQ.
  pose proof (one_le _ _ (one_le _ _ (tr_kap _ _ _ _ _ _ _ _ _ _ _ H0) (tr_kap _ _ _ _ _ _ _ _ _ _ _ H1)) (tr_kap _ _ _ _ _ _ _ _ _ _ _ H2)) as KP. pose proof (dl_small dl _ Hd KP HK) as Hdl.
  destruct (tr_good _ _ _ _ _ _ _ _ _ _ _ H0 Hdl Hz) as (_ & K0 & G0). assert (L0 : (1 <= m0 <= n0)%nat) by (eapply gs_n; exact G0). assert (M0 : 1 <= INR m0) by (apply (le_INR 1); lia). assert (MN0 : INR m0 <= INR n0) by (apply le_INR; lia). assert (N0 : 1 <= INR n0) by lra.
  destruct (tr_good _ _ _ _ _ _ _ _ _ _ _ H1 Hdl Hz) as (_ & K1 & G1). assert (L1 : (1 <= m1 <= n1)%nat) by (eapply gs_n; exact G1). assert (M1 : 1 <= INR m1) by (apply (le_INR 1); lia). assert (MN1 : INR m1 <= INR n1) by (apply le_INR; lia). assert (N1 : 1 <= INR n1) by lra.
  destruct (tr_good _ _ _ _ _ _ _ _ _ _ _ H2 Hdl Hz) as (_ & K2 & G2). assert (L2 : (1 <= m2 <= n2)%nat) by (eapply gs_n; exact G2). assert (M2 : 1 <= INR m2) by (apply (le_INR 1); lia). assert (MN2 : INR m2 <= INR n2) by (apply le_INR; lia). assert (N2 : 1 <= INR n2) by lra.
  pose proof (prod_ge_1 _ _ (prod_ge_1 _ _ N0 N1) N2) as NG. set (N := INR n0 * INR n1 * INR n2) in *.
  set (w := dl + bpow radix2 (-53)) in *. assert (Hu : 0 < bpow radix2 (-53)) by apply bpow_gt_0. assert (Hw : bpow radix2 (-53) <= w) by (unfold w; lra). pose proof (et_ok zt Hz) as Het. set (et := bpow radix2 (-1075) + zt) in *.
  assert (He : 0 <= 2027 * (k0 * k1 * k2) * w) by (apply Rmult_le_pos; lra).
  assert (Ht : 0 <= 242 * (k0 * k1 * k2) * N ^ 2 * et) by (apply Rmult_le_pos; [apply Rmult_le_pos; [lra|apply pow_le; lra]|lra]).
  assert (S0 : 0 <= Sum) by (unfold Sum; apply rsum_pos; intros; apply rsum_pos; intros; apply rsum_pos; intros; apply esize_pos).
  assert (HM : 0 <= INR m0 * INR m1 * INR m2 <= N). { split; [pose proof (prod_ge_1 _ _ (prod_ge_1 _ _ M0 M1) M2); lra|exact (prod_le _ _ _ _ (prod_ge_1 _ _ M0 M1) M2 (prod_le _ _ _ _ M0 M1 MN0 MN1) MN2)]. }
  assert (RG : 2 * Sum + 2 * INR q * (INR m0 * INR m1 * INR m2) * (242 * (k0 * k1 * k2) * N ^ 2 * et) <= bpow radix2 800).
  { apply top_ok. exact Sa. destruct q as [|q]; [cbn [INR]; rewrite Rmult_0_r, !Rmult_0_l; change (0 <= 2 * bpow radix2 52 * (bpow radix2 52 / 33 * (bpow radix2 52 / 33)) * (1001 / 1000)); pose proof (bpow_gt_0 radix2 52); repeat apply Rmult_le_pos; lra|].
    eapply Rle_trans; [apply (trips_less _ _ N); [apply pos_INR|apply HM|exact Ht]|]. apply (trips_range (bpow radix2 (-53)) (bpow radix2 52) _ N ((k0 * k1 * k2)) w 2027 242 et); auto. apply half_A. rewrite S_INR; pose proof (pos_INR q); lra. lra. lra.
     }
  destruct (many_trips (D3 m0 m1 m2) (S3 m0 m1 m2) _ (isum3 m0 m1 m2) (fun x => proper [m0; m1; m2] x /\ (forall i j k, (i < m0)%nat -> (j < m1)%nat -> (k < m2)%nat -> ef eS (get x [i; j; k])))
    (fun x p => ev eS (get x [snd (fst (fst p)); snd (fst p); snd p])) (fun p z => kept b0 r0 (snd (fst (fst p))) z) ltac:(intros; apply kept_twice) ltac:(intros; apply kept_close) ltac:(intros; apply kept_le)
    (2027 * (k0 * k1 * k2) * w) (242 * (k0 * k1 * k2) * N ^ 2 * et) (bpow radix2 800) (fun x => let* c := s3_backward zo sp x in s3_forward zo sp c) He Ht ltac:(rewrite ?Rmult_1_l; apply HM)
    ) with (k := q) (x := a) as (y & Ey & [Py Fy] & Ny & Zy).
  - intros x [Px Fx] Sx. destruct (C57_space3_forward_of_backward_f64 E HE dl zt Hd Hz k0 k1 k2 r0 P I J S T b0 b1 b2 eP eI eJ eS H0 H1 H2 HK dP dI dJ dS dT zo HZ x Px Fx Sx) as (c & y & Ec & Ey & Py & Hy).
    exists y. split. { change sp with (mk_space3 b0 b1 b2). rewrite Ec. exact Ey. } split. { split; [exact Py|]. intros i j k; intros; apply Hy; auto. }
    intros p Hp. destruct Hp as [[[_ Hp0] Hp1] Hp2]. apply Hy; auto.
  - split; auto.
  - rewrite ?Rmult_1_l. eapply Rle_trans; [|exact HQ]. apply trips_less; [apply pos_INR|apply HM|exact He].
  - rewrite ?Rmult_1_l. exact RG.
  - exists y. split; [exact Ey|]. split; [exact Py|]. intros i j k; intros. split; [apply Fy; auto|].
    assert (q0 : q <> 0%nat) by lia. exact (Ny q0 (tt, i, j, k) ltac:(split; [split; [split; [constructor|auto]|auto]|auto])).
Qed.
Print Assumptions C69_space3_coefficients_f64.

(** The field of the example of C56, after a thousand transforms there and back. *)
Example C69_example_thousand_trips :
  exists (E : ext f64) b1, let sp := mk_space2 (r2c_ops_x E (mk_r2c 4 3)) (r2r_ops_x E b1) in new_chebyshev 5 = Ok b1 /\ exists zo, zip_ok zo /\
  exists y, repeat_trip 1000 (fun x => let* c := s2_forward zo sp x in s2_backward zo sp c) field45 = Ok y /\
    forall i j, (i < 4)%nat -> (j < 5)%nat -> is_finite (get y [i; j]) = true /\ Rabs (B2R (get y [i; j]) - B2R (get field45 [i; j])) <= bpow radix2 (-27).
Proof.
  destruct C56_accurate_bases_exist as (E & HE & HC & HR & _). destruct (HC 5%nat ltac:(lia) ltac:(cbn; lia) (cplx f64) _) as (b1 & N1 & H1). destruct (HR 4%nat ltac:(lia) ltac:(cbn; lia)) as (f & N0 & H0).
  exists E, b1. intros sp. split; auto. destruct some_zip as [zo HZ]. exists zo. split; auto. injection N0 as <-.
  apply new_chebyshev_inv in N1 as [_ ->].
  assert (V : forall j, (j < 5)%nat -> is_finite tenths.[j] = true /\ Rabs (B2R tenths.[j]) <= 1).
  { intros j Hj. destruct j as [|[|[|[|[|]]]]]; try lia; (split; [vm_compute; reflexivity|]); rewrite <- SF2R_B2SF;
      match goal with |- Rabs (SF2R _ ?t) <= _ => let t' := eval vm_compute in t in replace t with t' by (vm_compute; reflexivity) end;
      cbn [SF2R SpecFloat.cond_Zopp]; unfold F2R; cbn [Fnum Fexp cond_Zopp]; rewrite Rabs_pos_eq; cbn; lra. }
  assert (VG : forall i j, (i < 4)%nat -> (j < 5)%nat -> get field45 [i; j] = tenths.[j]).
  { intros i j Hi Hj. destruct i as [|[|[|[|]]]]; try lia; destruct j as [|[|[|[|[|]]]]]; try lia; reflexivity. }
  set (S := rsum 4 (fun i => rsum 5 (fun j => esize f64_real (get field45 [i; j])))).
  assert (S1 : 0 <= S <= 32). { split. apply rsum_pos; intros; apply rsum_pos; intros; apply esize_pos.
    eapply Rle_trans. apply (rsum_le 4 _ (fun _ => 5)). intros i Hi. eapply Rle_trans. apply (rsum_le 5 _ (fun _ => 1)). intros j Hj. rewrite VG by auto. unfold esize. cbn [ev f64_real fst snd]. rewrite Rabs_R0. destruct (V j Hj). unfold f64_val. lra.
    rewrite rsum_const. cbn; lra. rewrite rsum_const. cbn; lra. }
  assert (I : INR 1000 = 1000) by (rewrite INR_IZR_INZ; reflexivity).
  destruct (C69_space2_values_f64 E HE (bpow radix2 (-52)) eta64 ltac:(cbn; lra) ltac:(pose proof eta1; lra) true false _ _ _ _ _ _ f64_real f64_real f64_cplx H0 H1 dflt_num dflt_num dflt_vec dflt_vec zo HZ field45) with (q := 1000%nat) as (y & Ey & _ & H).
  - repeat split.
  - intros i j Hi Hj. rewrite (VG i j Hi Hj). apply V; auto.
  - change (S <= bpow radix2 700). apply Rle_trans with (bpow radix2 5). change (bpow radix2 5) with 32. apply S1. apply bpow_le; lia.
  - rewrite I. change (2 * 1000 * (INR 4 * INR 5) * (178 * (bpow radix2 (-52) + bpow radix2 (-53))) <= 1).
    replace (INR 5) with 5 by (cbn; lra). replace (INR 4) with 4 by (cbn; lra). change (bpow radix2 (-52)) with (/ IZR (2 ^ 52)). change (bpow radix2 (-53)) with (/ IZR (2 ^ 53)). cbv [Z.pow Z.pow_pos Pos.iter Z.mul Pos.mul]. lra.
  - exists y. split; [exact Ey|]. intros i j Hi Hj. destruct (H i j Hi Hj) as [F B]. split; [exact F|]. clear H Ey. rewrite I in B.
    change (edist f64_real (get y [i; j]) (ev f64_real (get field45 [i; j])) <= 2 * 1000 * (178 * (bpow radix2 (-52) + u64) * S + 90 * (INR 4 * INR 5) ^ 2 * (eta64 + eta64))) in B.
    unfold edist in B. cbn [ev f64_real fst snd] in B. rewrite (Rminus_diag_eq 0 0 eq_refl), Rabs_R0, Rplus_0_r in B. eapply Rle_trans; [exact B|]. clear B F V VG.
    assert (E1 : eta64 <= bpow radix2 (-60)) by (apply bpow_le; lia). pose proof (bpow_gt_0 radix2 (-1075)) as E0. revert S1. generalize S. revert E1 E0. generalize eta64. clear. intros et E1 E0 S S1.
    change (bpow radix2 (-60)) with (/ IZR (2 ^ 60)) in E1. change (bpow radix2 (-52)) with (/ IZR (2 ^ 52)). change (bpow radix2 (-53)) with (/ IZR (2 ^ 53)). change (bpow radix2 (-27)) with (/ IZR (2 ^ 27)).
    replace (INR 5) with 5 by (cbn; lra). replace (INR 4) with 4 by (cbn; lra). cbv [Z.pow Z.pow_pos Pos.iter Z.mul Pos.mul] in *. lra.
Qed.
