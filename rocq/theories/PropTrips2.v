(** C69 with scalars f32.  A field of Space1, Space2 or Space3 that is transformed there and back k
    times in f32: the errors add up, they do not multiply. *)
From Coq Require Import List Arith ZArith Reals Bool Lra Lia.
From Flocq Require Import Core BinarySingleNaN.
From Verif Require Import Base Num Linalg Stencils Cheb ChebFacts Compo CompoProofs Fourier FourierF64 FourierFacts FourierProofs Bases BaseLin LibBase NdArray NdArrayFacts AxisFacts AxisProps PropAxis SpaceFacts SpaceBases SpaceStages Space PropSpace PropSpace2 PropElements
  ExtLib AnyArith ExtFacts AnyBase PropAny PropAny2 Rounding LibAcc LibIdeal RndCheb RndFft RndR2c RndFinite2 PropRound PropRound2 RndAxis RndOps RndAxis2 SpaceAcc SpaceAcc2 RndSpace RndSpace2 PropTrans3 PropTrans6 Trips PropTrips SpaceVal32 RndVal32 PropTrans7 RndSpace32 PropTrans8 RndSpace2_32 PropTrans9.
Import ListNotations.
Local Open Scope R_scope.
Local Notation u32 := (bpow radix2 (-24)).
Local Notation eta32 := (bpow radix2 (-150)).

Lemma half_A : bpow radix2 23 * u32 = / 2.
Proof. rewrite <- bpow_plus. reflexivity. Qed.
Lemma top_ok S X : S <= bpow radix2 50 -> X <= 2 * bpow radix2 23 * (bpow radix2 23 / 33 * (bpow radix2 23 / 33)) * (1001 / 1000) -> 2 * S + X <= bpow radix2 60.
Proof.
  intros HS HX. change (bpow radix2 23) with (IZR (2 ^ 23)) in HX. change (bpow radix2 50) with (IZR (2 ^ 50)) in HS. change (bpow radix2 60) with (IZR (2 ^ 60)).
  cbv [Z.pow Z.pow_pos Pos.iter Z.mul Pos.mul] in *. lra.
Qed.
Lemma et_ok zt : 0 <= zt <= 1 -> 0 <= eta32 + zt <= 1001 / 1000.
Proof. intros H. pose proof (bpow_gt_0 radix2 (-150)). assert (eta32 <= bpow radix2 (-10)) by (apply bpow_le; lia). change (bpow radix2 (-10)) with (/ 1024) in *. lra. Qed.

Theorem C69_space1_values_f32 :
  forall E : ext f32, ext_ok E -> forall dl zt, 0 <= dl <= / 2000 -> 0 <= zt <= 1 ->
  forall r0 P S T (b0 : base_ops P S T) (eP : fel P) (eS : fel S),
  f32_orthogonal E dl zt r0 P S T b0 eP eS ->
  forall (dP : Dflt P) (dS : Dflt S) (dT : Dflt T) zo, zip_ok zo ->
  let sp := mk_space1 b0 in let n0 := len_phys b0 in
  forall a : arr P, proper [n0] a -> (forall i, (i < n0)%nat -> ef eP (get a [i])) ->
  let Sum := rsum n0 (fun i => esize eP (get a [i])) in
  Sum <= bpow radix2 50 ->
  forall q, 2 * INR q * INR n0 * (33 * (dl + bpow radix2 (-24))) <= 1 ->
  exists y, repeat_trip q (fun x => let* c := s1_forward zo sp x in s1_backward zo sp c) a = Ok y /\ proper [n0] y /\
    forall i, (i < n0)%nat -> ef eP (get y [i]) /\
      edist eP (get y [i]) (ev eP (get a [i])) <= 2 * INR q * (33 * (dl + bpow radix2 (-24)) * Sum + 29 * INR n0 ^ 2 * (bpow radix2 (-150) + zt)).
Proof.
  intros E HE dl zt Hd Hz r0 P S T b0 eP eS H0 dP dS dT zo HZ sp n0 a Pa Fa Sum Sa q HQ.
  assert (KP : 1 <= 1) by lra.
  destruct (orth_good _ _ _ _ _ _ _ _ _ _ H0 (le_1 _ Hd) Hz) as (_ & G0 & _). assert (L0 : (1 <= n0 <= n0)%nat) by (eapply gops_n; exact G0). assert (N0 : 1 <= INR n0) by (apply (le_INR 1); apply L0).
  pose proof N0 as NG. set (N := INR n0) in *.
  set (w := dl + bpow radix2 (-24)) in *. assert (Hu : 0 < bpow radix2 (-24)) by apply bpow_gt_0. assert (Hw : bpow radix2 (-24) <= w) by (unfold w; lra). pose proof (et_ok zt Hz) as Het. set (et := bpow radix2 (-150) + zt) in *.
  assert (He : 0 <= 33 * 1 * w) by (apply Rmult_le_pos; lra).
  assert (Ht : 0 <= 29 * 1 * N ^ 2 * et) by (apply Rmult_le_pos; [apply Rmult_le_pos; [lra|apply pow_le; lra]|lra]).
  assert (S0 : 0 <= Sum) by (unfold Sum; apply rsum_pos; intros; apply esize_pos).
  assert (HM : 0 <= INR n0 <= N). { unfold N in *; lra. }
  assert (RG : 2 * Sum + 2 * INR q * (INR n0) * (29 * 1 * N ^ 2 * et) <= bpow radix2 60).
  { apply top_ok. exact Sa. destruct q as [|q]; [cbn [INR]; rewrite Rmult_0_r, !Rmult_0_l; change (0 <= 2 * bpow radix2 23 * (bpow radix2 23 / 33 * (bpow radix2 23 / 33)) * (1001 / 1000)); pose proof (bpow_gt_0 radix2 23); repeat apply Rmult_le_pos; lra|].
    eapply Rle_trans; [apply (trips_less _ _ N); [apply pos_INR|apply HM|exact Ht]|]. apply (trips_range (bpow radix2 (-24)) (bpow radix2 23) _ N (1) w 33 29 et); auto. apply half_A. rewrite S_INR; pose proof (pos_INR q); lra. lra. lra.
    rewrite Rmult_1_r; exact HQ. }
  destruct (many_trips (D1 n0) (S1 n0) _ (isum1 n0) (fun x => proper [n0] x /\ (forall i, (i < n0)%nat -> ef eP (get x [i])))
    (fun x p => ev eP (get x [snd p])) (fun _ z => z) ltac:(reflexivity) ltac:(intros; apply Rle_refl) ltac:(intros; apply Rle_refl)
    (33 * 1 * w) (29 * 1 * N ^ 2 * et) (bpow radix2 60) (fun x => let* c := s1_forward zo sp x in s1_backward zo sp c) He Ht ltac:(rewrite ?Rmult_1_l; apply HM)
    ) with (k := q) (x := a) as (y & Ey & [Py Fy] & Ny & Zy).
  - intros x [Px Fx] Sx. destruct (C67_space1_backward_of_forward_f32 E HE dl zt Hd Hz r0 P S T b0 eP eS H0 dP dS dT zo HZ x Px Fx Sx) as (c & y & Ec & Ey & Py & Hy).
    exists y. split. { change sp with (mk_space1 b0). rewrite Ec. exact Ey. } split. { split; [exact Py|]. intros i; intros; apply Hy; auto. }
    intros p Hp. destruct Hp as [_ Hp0]. rewrite ?Rmult_1_r. apply Hy; auto.
  - split; auto.
  - rewrite ?Rmult_1_l. eapply Rle_trans; [|rewrite <- (Rmult_1_r 33) in HQ; exact HQ]. apply trips_less; [apply pos_INR|apply HM|exact He].
  - rewrite ?Rmult_1_l. exact RG.
  - exists y. split; [exact Ey|]. split; [exact Py|]. intros i; intros. split; [apply Fy; auto|].
    destruct q as [|q].
    + rewrite (Zy eq_refl). unfold edist. rewrite !Rminus_diag_eq, Rabs_R0 by reflexivity. cbn [INR]. rewrite Rmult_0_r, Rmult_0_l, Rplus_0_r. apply Rle_refl.
    + pose proof (Ny ltac:(discriminate) (tt, i) ltac:(split; [constructor|auto])) as G. rewrite !Rmult_1_r in G. exact G.
Qed.
Print Assumptions C69_space1_values_f32.

Theorem C69_space2_values_f32 :
  forall E : ext f32, ext_ok E -> forall dl zt, 0 <= dl <= / 2000 -> 0 <= zt <= 1 ->
  forall r0 r1 P I S T (b0 : base_ops I S T) (b1 : base_ops P I T) (eP : fel P) (eI : fel I) (eS : fel S),
  f32_orthogonal E dl zt r0 I S T b0 eI eS -> f32_orthogonal E dl zt r1 P I T b1 eP eI ->
  forall (dP : Dflt P) (dI : Dflt I) (dS : Dflt S) (dT : Dflt T) zo, zip_ok zo ->
  let sp := mk_space2 b0 b1 in let n0 := len_phys b0 in let n1 := len_phys b1 in
  forall a : arr P, proper [n0; n1] a -> (forall i j, (i < n0)%nat -> (j < n1)%nat -> ef eP (get a [i; j])) ->
  let Sum := rsum n0 (fun i => rsum n1 (fun j => esize eP (get a [i; j]))) in
  Sum <= bpow radix2 50 ->
  forall q, 2 * INR q * (INR n0 * INR n1) * (178 * (dl + bpow radix2 (-24))) <= 1 ->
  exists y, repeat_trip q (fun x => let* c := s2_forward zo sp x in s2_backward zo sp c) a = Ok y /\ proper [n0; n1] y /\
    forall i j, (i < n0)%nat -> (j < n1)%nat -> ef eP (get y [i; j]) /\
      edist eP (get y [i; j]) (ev eP (get a [i; j])) <= 2 * INR q * (178 * (dl + bpow radix2 (-24)) * Sum + 90 * (INR n0 * INR n1) ^ 2 * (bpow radix2 (-150) + zt)).
Proof.
  intros E HE dl zt Hd Hz r0 r1 P I S T b0 b1 eP eI eS H0 H1 dP dI dS dT zo HZ sp n0 n1 a Pa Fa Sum Sa q HQ.
  assert (KP : 1 <= 1) by lra.
  destruct (orth_good _ _ _ _ _ _ _ _ _ _ H0 (le_1 _ Hd) Hz) as (_ & G0 & _). assert (L0 : (1 <= n0 <= n0)%nat) by (eapply gops_n; exact G0). assert (N0 : 1 <= INR n0) by (apply (le_INR 1); apply L0).
  destruct (orth_good _ _ _ _ _ _ _ _ _ _ H1 (le_1 _ Hd) Hz) as (_ & G1 & _). assert (L1 : (1 <= n1 <= n1)%nat) by (eapply gops_n; exact G1). assert (N1 : 1 <= INR n1) by (apply (le_INR 1); apply L1).
  pose proof (prod_ge_1 _ _ N0 N1) as NG. set (N := INR n0 * INR n1) in *.
  set (w := dl + bpow radix2 (-24)) in *. assert (Hu : 0 < bpow radix2 (-24)) by apply bpow_gt_0. assert (Hw : bpow radix2 (-24) <= w) by (unfold w; lra). pose proof (et_ok zt Hz) as Het. set (et := bpow radix2 (-150) + zt) in *.
  assert (He : 0 <= 178 * 1 * w) by (apply Rmult_le_pos; lra).
  assert (Ht : 0 <= 90 * 1 * N ^ 2 * et) by (apply Rmult_le_pos; [apply Rmult_le_pos; [lra|apply pow_le; lra]|lra]).
  assert (S0 : 0 <= Sum) by (unfold Sum; apply rsum_pos; intros; apply rsum_pos; intros; apply esize_pos).
  assert (HM : 0 <= INR n0 * INR n1 <= N). { unfold N in *; lra. }
  assert (RG : 2 * Sum + 2 * INR q * (INR n0 * INR n1) * (90 * 1 * N ^ 2 * et) <= bpow radix2 60).
  { apply top_ok. exact Sa. destruct q as [|q]; [cbn [INR]; rewrite Rmult_0_r, !Rmult_0_l; change (0 <= 2 * bpow radix2 23 * (bpow radix2 23 / 33 * (bpow radix2 23 / 33)) * (1001 / 1000)); pose proof (bpow_gt_0 radix2 23); repeat apply Rmult_le_pos; lra|].
    eapply Rle_trans; [apply (trips_less _ _ N); [apply pos_INR|apply HM|exact Ht]|]. apply (trips_range (bpow radix2 (-24)) (bpow radix2 23) _ N (1) w 178 90 et); auto. apply half_A. rewrite S_INR; pose proof (pos_INR q); lra. lra. lra.
    rewrite Rmult_1_r; exact HQ. }
  destruct (many_trips (D2 n0 n1) (S2 n0 n1) _ (isum2 n0 n1) (fun x => proper [n0; n1] x /\ (forall i j, (i < n0)%nat -> (j < n1)%nat -> ef eP (get x [i; j])))
    (fun x p => ev eP (get x [snd (fst p); snd p])) (fun _ z => z) ltac:(reflexivity) ltac:(intros; apply Rle_refl) ltac:(intros; apply Rle_refl)
    (178 * 1 * w) (90 * 1 * N ^ 2 * et) (bpow radix2 60) (fun x => let* c := s2_forward zo sp x in s2_backward zo sp c) He Ht ltac:(rewrite ?Rmult_1_l; apply HM)
    ) with (k := q) (x := a) as (y & Ey & [Py Fy] & Ny & Zy).
  - intros x [Px Fx] Sx. destruct (C67_space2_backward_of_forward_f32 E HE dl zt Hd Hz r0 r1 P I S T b0 b1 eP eI eS H0 H1 dP dI dS dT zo HZ x Px Fx Sx) as (c & y & Ec & Ey & Py & Hy).
    exists y. split. { change sp with (mk_space2 b0 b1). rewrite Ec. exact Ey. } split. { split; [exact Py|]. intros i j; intros; apply Hy; auto. }
    intros p Hp. destruct Hp as [[_ Hp0] Hp1]. rewrite ?Rmult_1_r. apply Hy; auto.
  - split; auto.
  - rewrite ?Rmult_1_l. eapply Rle_trans; [|rewrite <- (Rmult_1_r 178) in HQ; exact HQ]. apply trips_less; [apply pos_INR|apply HM|exact He].
  - rewrite ?Rmult_1_l. exact RG.
  - exists y. split; [exact Ey|]. split; [exact Py|]. intros i j; intros. split; [apply Fy; auto|].
    destruct q as [|q].
    + rewrite (Zy eq_refl). unfold edist. rewrite !Rminus_diag_eq, Rabs_R0 by reflexivity. cbn [INR]. rewrite Rmult_0_r, Rmult_0_l, Rplus_0_r. apply Rle_refl.
    + pose proof (Ny ltac:(discriminate) (tt, i, j) ltac:(split; [split; [constructor|auto]|auto])) as G. rewrite !Rmult_1_r in G. exact G.
Qed.
Print Assumptions C69_space2_values_f32.

Theorem C69_space3_values_f32 :
  forall E : ext f32, ext_ok E -> forall dl zt, 0 <= dl <= / 2000 -> 0 <= zt <= 1 ->
  forall r0 r1 r2 P I J S T (b0 : base_ops J S T) (b1 : base_ops I J T) (b2 : base_ops P I T) (eP : fel P) (eI : fel I) (eJ : fel J) (eS : fel S),
  f32_orthogonal E dl zt r0 J S T b0 eJ eS -> f32_orthogonal E dl zt r1 I J T b1 eI eJ -> f32_orthogonal E dl zt r2 P I T b2 eP eI ->
  forall (dP : Dflt P) (dI : Dflt I) (dJ : Dflt J) (dS : Dflt S) (dT : Dflt T) zo, zip_ok zo ->
  let sp := mk_space3 b0 b1 b2 in let n0 := len_phys b0 in let n1 := len_phys b1 in let n2 := len_phys b2 in
  forall a : arr P, proper [n0; n1; n2] a -> (forall i j k, (i < n0)%nat -> (j < n1)%nat -> (k < n2)%nat -> ef eP (get a [i; j; k])) ->
  let Sum := rsum n0 (fun i => rsum n1 (fun j => rsum n2 (fun k => esize eP (get a [i; j; k])))) in
  Sum <= bpow radix2 50 ->
  forall q, 2 * INR q * (INR n0 * INR n1 * INR n2) * (816 * (dl + bpow radix2 (-24))) <= 1 ->
  exists y, repeat_trip q (fun x => let* c := s3_forward zo sp x in s3_backward zo sp c) a = Ok y /\ proper [n0; n1; n2] y /\
    forall i j k, (i < n0)%nat -> (j < n1)%nat -> (k < n2)%nat -> ef eP (get y [i; j; k]) /\
      edist eP (get y [i; j; k]) (ev eP (get a [i; j; k])) <= 2 * INR q * (816 * (dl + bpow radix2 (-24)) * Sum + 218 * (INR n0 * INR n1 * INR n2) ^ 2 * (bpow radix2 (-150) + zt)).
Proof.
  intros E HE dl zt Hd Hz r0 r1 r2 P I J S T b0 b1 b2 eP eI eJ eS H0 H1 H2 dP dI dJ dS dT zo HZ sp n0 n1 n2 a Pa Fa Sum Sa q HQ.
  assert (KP : 1 <= 1) by lra.
  destruct (orth_good _ _ _ _ _ _ _ _ _ _ H0 (le_1 _ Hd) Hz) as (_ & G0 & _). assert (L0 : (1 <= n0 <= n0)%nat) by (eapply gops_n; exact G0). assert (N0 : 1 <= INR n0) by (apply (le_INR 1); apply L0).
  destruct (orth_good _ _ _ _ _ _ _ _ _ _ H1 (le_1 _ Hd) Hz) as (_ & G1 & _). assert (L1 : (1 <= n1 <= n1)%nat) by (eapply gops_n; exact G1). assert (N1 : 1 <= INR n1) by (apply (le_INR 1); apply L1).
  destruct (orth_good _ _ _ _ _ _ _ _ _ _ H2 (le_1 _ Hd) Hz) as (_ & G2 & _). assert (L2 : (1 <= n2 <= n2)%nat) by (eapply gops_n; exact G2). assert (N2 : 1 <= INR n2) by (apply (le_INR 1); apply L2).
  pose proof (prod_ge_1 _ _ (prod_ge_1 _ _ N0 N1) N2) as NG. set (N := INR n0 * INR n1 * INR n2) in *.
  set (w := dl + bpow radix2 (-24)) in *. assert (Hu : 0 < bpow radix2 (-24)) by apply bpow_gt_0. assert (Hw : bpow radix2 (-24) <= w) by (unfold w; lra). pose proof (et_ok zt Hz) as Het. set (et := bpow radix2 (-150) + zt) in *.
  assert (He : 0 <= 816 * 1 * w) by (apply Rmult_le_pos; lra).
  assert (Ht : 0 <= 218 * 1 * N ^ 2 * et) by (apply Rmult_le_pos; [apply Rmult_le_pos; [lra|apply pow_le; lra]|lra]).
  assert (S0 : 0 <= Sum) by (unfold Sum; apply rsum_pos; intros; apply rsum_pos; intros; apply rsum_pos; intros; apply esize_pos).
  assert (HM : 0 <= INR n0 * INR n1 * INR n2 <= N). { unfold N in *; lra. }
  assert (RG : 2 * Sum + 2 * INR q * (INR n0 * INR n1 * INR n2) * (218 * 1 * N ^ 2 * et) <= bpow radix2 60).
  { apply top_ok. exact Sa. destruct q as [|q]; [cbn [INR]; rewrite Rmult_0_r, !Rmult_0_l; change (0 <= 2 * bpow radix2 23 * (bpow radix2 23 / 33 * (bpow radix2 23 / 33)) * (1001 / 1000)); pose proof (bpow_gt_0 radix2 23); repeat apply Rmult_le_pos; lra|].
    eapply Rle_trans; [apply (trips_less _ _ N); [apply pos_INR|apply HM|exact Ht]|]. apply (trips_range (bpow radix2 (-24)) (bpow radix2 23) _ N (1) w 816 218 et); auto. apply half_A. rewrite S_INR; pose proof (pos_INR q); lra. lra. lra.
    rewrite Rmult_1_r; exact HQ. }
  destruct (many_trips (D3 n0 n1 n2) (S3 n0 n1 n2) _ (isum3 n0 n1 n2) (fun x => proper [n0; n1; n2] x /\ (forall i j k, (i < n0)%nat -> (j < n1)%nat -> (k < n2)%nat -> ef eP (get x [i; j; k])))
    (fun x p => ev eP (get x [snd (fst (fst p)); snd (fst p); snd p])) (fun _ z => z) ltac:(reflexivity) ltac:(intros; apply Rle_refl) ltac:(intros; apply Rle_refl)
    (816 * 1 * w) (218 * 1 * N ^ 2 * et) (bpow radix2 60) (fun x => let* c := s3_forward zo sp x in s3_backward zo sp c) He Ht ltac:(rewrite ?Rmult_1_l; apply HM)
    ) with (k := q) (x := a) as (y & Ey & [Py Fy] & Ny & Zy).
  - intros x [Px Fx] Sx. destruct (C67_space3_backward_of_forward_f32 E HE dl zt Hd Hz r0 r1 r2 P I J S T b0 b1 b2 eP eI eJ eS H0 H1 H2 dP dI dJ dS dT zo HZ x Px Fx Sx) as (c & y & Ec & Ey & Py & Hy).
    exists y. split. { change sp with (mk_space3 b0 b1 b2). rewrite Ec. exact Ey. } split. { split; [exact Py|]. intros i j k; intros; apply Hy; auto. }
    intros p Hp. destruct Hp as [[[_ Hp0] Hp1] Hp2]. rewrite ?Rmult_1_r. apply Hy; auto.
  - split; auto.
  - rewrite ?Rmult_1_l. eapply Rle_trans; [|rewrite <- (Rmult_1_r 816) in HQ; exact HQ]. apply trips_less; [apply pos_INR|apply HM|exact He].
  - rewrite ?Rmult_1_l. exact RG.
  - exists y. split; [exact Ey|]. split; [exact Py|]. intros i j k; intros. split; [apply Fy; auto|].
    destruct q as [|q].
    + rewrite (Zy eq_refl). unfold edist. rewrite !Rminus_diag_eq, Rabs_R0 by reflexivity. cbn [INR]. rewrite Rmult_0_r, Rmult_0_l, Rplus_0_r. apply Rle_refl.
    + pose proof (Ny ltac:(discriminate) (tt, i, j, k) ltac:(split; [split; [split; [constructor|auto]|auto]|auto])) as G. rewrite !Rmult_1_r in G. exact G.
Qed.
Print Assumptions C69_space3_values_f32.

Theorem C69_space1_coefficients_f32 :
  forall E : ext f32, ext_ok E -> forall dl zt, 0 <= dl -> 0 <= zt <= 1 ->
  forall kap r0 P S T (b0 : base_ops P S T) (eP : fel P) (eS : fel S),
  f32_transform E dl zt kap r0 P S T b0 eP eS -> kap * (dl + bpow radix2 (-24)) <= / 2000 ->
  forall (dP : Dflt P) (dS : Dflt S) (dT : Dflt T) zo, zip_ok zo ->
  let sp := mk_space1 b0 in let n0 := len_phys b0 in let m0 := len_spec b0 in
  forall a : arr S, proper [m0] a -> (forall i, (i < m0)%nat -> ef eS (get a [i])) ->
  let Sum := rsum m0 (fun i => esize eS (get a [i])) in
  Sum <= bpow radix2 50 ->
  forall q , (1 <= q)%nat -> 2 * INR q * INR n0 * (63 * kap * (dl + bpow radix2 (-24))) <= 1 ->
  exists y, repeat_trip q (fun x => let* c := s1_backward zo sp x in s1_forward zo sp c) a = Ok y /\ proper [m0] y /\
    forall i, (i < m0)%nat -> ef eS (get y [i]) /\
      edist eS (get y [i]) (kept b0 r0 i (ev eS (get a [i]))) <= 2 * INR q * (63 * kap * (dl + bpow radix2 (-24)) * Sum + 32 * kap * INR n0 ^ 2 * (bpow radix2 (-150) + zt)).
Proof.
  intros E HE dl zt Hd Hz kap r0 P S T b0 eP eS H0 HK dP dS dT zo HZ sp n0 m0 a Pa Fa Sum Sa q Hq1 HQ.
  pose proof (tr_kap _ _ _ _ _ _ _ _ _ _ _ H0) as KP. pose proof (dl_small dl _ Hd KP HK) as Hdl.
  destruct (tr_good _ _ _ _ _ _ _ _ _ _ _ H0 Hdl Hz) as (_ & K0 & G0). assert (L0 : (1 <= m0 <= n0)%nat) by (eapply gs_n; exact G0). assert (M0 : 1 <= INR m0) by (apply (le_INR 1); lia). assert (MN0 : INR m0 <= INR n0) by (apply le_INR; lia). assert (N0 : 1 <= INR n0) by lra.
  pose proof N0 as NG. set (N := INR n0) in *.
  set (w := dl + bpow radix2 (-24)) in *. assert (Hu : 0 < bpow radix2 (-24)) by apply bpow_gt_0. assert (Hw : bpow radix2 (-24) <= w) by (unfold w; lra). pose proof (et_ok zt Hz) as Het. set (et := bpow radix2 (-150) + zt) in *.
  assert (He : 0 <= 63 * kap * w) by (apply Rmult_le_pos; lra).
  assert (Ht : 0 <= 32 * kap * N ^ 2 * et) by (apply Rmult_le_pos; [apply Rmult_le_pos; [lra|apply pow_le; lra]|lra]).
  assert (S0 : 0 <= Sum) by (unfold Sum; apply rsum_pos; intros; apply esize_pos).
  assert (HM : 0 <= INR m0 <= N). { split; [pose proof M0; lra|exact MN0]. }
  assert (RG : 2 * Sum + 2 * INR q * (INR m0) * (32 * kap * N ^ 2 * et) <= bpow radix2 60).
  { apply top_ok. exact Sa. destruct q as [|q]; [cbn [INR]; rewrite Rmult_0_r, !Rmult_0_l; change (0 <= 2 * bpow radix2 23 * (bpow radix2 23 / 33 * (bpow radix2 23 / 33)) * (1001 / 1000)); pose proof (bpow_gt_0 radix2 23); repeat apply Rmult_le_pos; lra|].
    eapply Rle_trans; [apply (trips_less _ _ N); [apply pos_INR|apply HM|exact Ht]|]. apply (trips_range (bpow radix2 (-24)) (bpow radix2 23) _ N (kap) w 63 32 et); auto. apply half_A. rewrite S_INR; pose proof (pos_INR q); lra. lra. lra.
     }
  destruct (many_trips (D1 m0) (S1 m0) _ (isum1 m0) (fun x => proper [m0] x /\ (forall i, (i < m0)%nat -> ef eS (get x [i])))
    (fun x p => ev eS (get x [snd p])) (fun p z => kept b0 r0 (snd p) z) ltac:(intros; apply kept_twice) ltac:(intros; apply kept_close) ltac:(intros; apply kept_le)
    (63 * kap * w) (32 * kap * N ^ 2 * et) (bpow radix2 60) (fun x => let* c := s1_backward zo sp x in s1_forward zo sp c) He Ht ltac:(rewrite ?Rmult_1_l; apply HM)
    ) with (k := q) (x := a) as (y & Ey & [Py Fy] & Ny & Zy).
  - intros x [Px Fx] Sx. destruct (C67_space1_spectral_round_trip_f32 E HE dl zt Hd Hz kap r0 P S T b0 eP eS H0 HK dP dS dT zo HZ x Px Fx Sx) as (c & y & Ec & Ey & Py & Hy).
    exists y. split. { change sp with (mk_space1 b0). rewrite Ec. exact Ey. } split. { split; [exact Py|]. intros i; intros; apply Hy; auto. }
    intros p Hp. destruct Hp as [_ Hp0]. apply Hy; auto.
  - split; auto.
  - rewrite ?Rmult_1_l. eapply Rle_trans; [|exact HQ]. apply trips_less; [apply pos_INR|apply HM|exact He].
  - rewrite ?Rmult_1_l. exact RG.
  - exists y. split; [exact Ey|]. split; [exact Py|]. intros i; intros. split; [apply Fy; auto|].
    assert (q0 : q <> 0%nat) by lia. exact (Ny q0 (tt, i) ltac:(split; [constructor|auto])).
Qed.
Print Assumptions C69_space1_coefficients_f32.

Theorem C69_space2_coefficients_f32 :
  forall E : ext f32, ext_ok E -> forall dl zt, 0 <= dl -> 0 <= zt <= 1 ->
  forall k0 k1 r0 P I S T (b0 : base_ops I S T) (b1 : base_ops P I T) (eP : fel P) (eI : fel I) (eS : fel S),
  f32_transform E dl zt k0 r0 I S T b0 eI eS -> f32_transform E dl zt k1 false P I T b1 eP eI -> k0 * k1 * (dl + bpow radix2 (-24)) <= / 2000 ->
  forall (dP : Dflt P) (dI : Dflt I) (dS : Dflt S) (dT : Dflt T) zo, zip_ok zo ->
  let sp := mk_space2 b0 b1 in let n0 := len_phys b0 in let n1 := len_phys b1 in let m0 := len_spec b0 in let m1 := len_spec b1 in
  forall a : arr S, proper [m0; m1] a -> (forall i j, (i < m0)%nat -> (j < m1)%nat -> ef eS (get a [i; j])) ->
  let Sum := rsum m0 (fun i => rsum m1 (fun j => esize eS (get a [i; j]))) in
  Sum <= bpow radix2 50 ->
  forall q , (1 <= q)%nat -> 2 * INR q * (INR n0 * INR n1) * (385 * (k0 * k1) * (dl + bpow radix2 (-24))) <= 1 ->
  exists y, repeat_trip q (fun x => let* c := s2_backward zo sp x in s2_forward zo sp c) a = Ok y /\ proper [m0; m1] y /\
    forall i j, (i < m0)%nat -> (j < m1)%nat -> ef eS (get y [i; j]) /\
      edist eS (get y [i; j]) (kept b0 r0 i (ev eS (get a [i; j]))) <= 2 * INR q * (385 * (k0 * k1) * (dl + bpow radix2 (-24)) * Sum + 100 * (k0 * k1) * (INR n0 * INR n1) ^ 2 * (bpow radix2 (-150) + zt)).
Proof.
  intros E HE dl zt Hd Hz k0 k1 r0 P I S T b0 b1 eP eI eS H0 H1 HK dP dI dS dT zo HZ sp n0 n1 m0 m1 a Pa Fa Sum Sa q Hq1 HQ.
  pose proof (one_le _ _ (tr_kap _ _ _ _ _ _ _ _ _ _ _ H0) (tr_kap _ _ _ _ _ _ _ _ _ _ _ H1)) as KP. pose proof (dl_small dl _ Hd KP HK) as Hdl.
  destruct (tr_good _ _ _ _ _ _ _ _ _ _ _ H0 Hdl Hz) as (_ & K0 & G0). assert (L0 : (1 <= m0 <= n0)%nat) by (eapply gs_n; exact G0). assert (M0 : 1 <= INR m0) by (apply (le_INR 1); lia). assert (MN0 : INR m0 <= INR n0) by (apply le_INR; lia). assert (N0 : 1 <= INR n0) by lra.
  destruct (tr_good _ _ _ _ _ _ _ _ _ _ _ H1 Hdl Hz) as (_ & K1 & G1). assert (L1 : (1 <= m1 <= n1)%nat) by (eapply gs_n; exact G1). assert (M1 : 1 <= INR m1) by (apply (le_INR 1); lia). assert (MN1 : INR m1 <= INR n1) by (apply le_INR; lia). assert (N1 : 1 <= INR n1) by lra.
  pose proof (prod_ge_1 _ _ N0 N1) as NG. set (N := INR n0 * INR n1) in *.
  set (w := dl + bpow radix2 (-24)) in *. assert (Hu : 0 < bpow radix2 (-24)) by apply bpow_gt_0. assert (Hw : bpow radix2 (-24) <= w) by (unfold w; lra). pose proof (et_ok zt Hz) as Het. set (et := bpow radix2 (-150) + zt) in *.
  assert (He : 0 <= 385 * (k0 * k1) * w) by (apply Rmult_le_pos; lra).
  assert (Ht : 0 <= 100 * (k0 * k1) * N ^ 2 * et) by (apply Rmult_le_pos; [apply Rmult_le_pos; [lra|apply pow_le; lra]|lra]).
  assert (S0 : 0 <= Sum) by (unfold Sum; apply rsum_pos; intros; apply rsum_pos; intros; apply esize_pos).
  assert (HM : 0 <= INR m0 * INR m1 <= N). { split; [pose proof (prod_ge_1 _ _ M0 M1); lra|exact (prod_le _ _ _ _ M0 M1 MN0 MN1)]. }
  assert (RG : 2 * Sum + 2 * INR q * (INR m0 * INR m1) * (100 * (k0 * k1) * N ^ 2 * et) <= bpow radix2 60).
  { apply top_ok. exact Sa. destruct q as [|q]; [cbn [INR]; rewrite Rmult_0_r, !Rmult_0_l; change (0 <= 2 * bpow radix2 23 * (bpow radix2 23 / 33 * (bpow radix2 23 / 33)) * (1001 / 1000)); pose proof (bpow_gt_0 radix2 23); repeat apply Rmult_le_pos; lra|].
    eapply Rle_trans; [apply (trips_less _ _ N); [apply pos_INR|apply HM|exact Ht]|]. apply (trips_range (bpow radix2 (-24)) (bpow radix2 23) _ N ((k0 * k1)) w 385 100 et); auto. apply half_A. rewrite S_INR; pose proof (pos_INR q); lra. lra. lra.
     }
  destruct (many_trips (D2 m0 m1) (S2 m0 m1) _ (isum2 m0 m1) (fun x => proper [m0; m1] x /\ (forall i j, (i < m0)%nat -> (j < m1)%nat -> ef eS (get x [i; j])))
    (fun x p => ev eS (get x [snd (fst p); snd p])) (fun p z => kept b0 r0 (snd (fst p)) z) ltac:(intros; apply kept_twice) ltac:(intros; apply kept_close) ltac:(intros; apply kept_le)
    (385 * (k0 * k1) * w) (100 * (k0 * k1) * N ^ 2 * et) (bpow radix2 60) (fun x => let* c := s2_backward zo sp x in s2_forward zo sp c) He Ht ltac:(rewrite ?Rmult_1_l; apply HM)
    ) with (k := q) (x := a) as (y & Ey & [Py Fy] & Ny & Zy).
  - intros x [Px Fx] Sx. destruct (C67_space2_spectral_round_trip_f32 E HE dl zt Hd Hz k0 k1 r0 P I S T b0 b1 eP eI eS H0 H1 HK dP dI dS dT zo HZ x Px Fx Sx) as (c & y & Ec & Ey & Py & Hy).
    exists y. split. { change sp with (mk_space2 b0 b1). rewrite Ec. exact Ey. } split. { split; [exact Py|]. intros i j; intros; apply Hy; auto. }
    intros p Hp. destruct Hp as [[_ Hp0] Hp1]. apply Hy; auto.
  - split; auto.
  - rewrite ?Rmult_1_l. eapply Rle_trans; [|exact HQ]. apply trips_less; [apply pos_INR|apply HM|exact He].
  - rewrite ?Rmult_1_l. exact RG.
  - exists y. split; [exact Ey|]. split; [exact Py|]. intros i j; intros. split; [apply Fy; auto|].
    assert (q0 : q <> 0%nat) by lia. exact (Ny q0 (tt, i, j) ltac:(split; [split; [constructor|auto]|auto])).
Qed.
Print Assumptions C69_space2_coefficients_f32.

Theorem C69_space3_coefficients_f32 :
  forall E : ext f32, ext_ok E -> forall dl zt, 0 <= dl -> 0 <= zt <= 1 ->
  forall k0 k1 k2 r0 P I J S T (b0 : base_ops J S T) (b1 : base_ops I J T) (b2 : base_ops P I T) (eP : fel P) (eI : fel I) (eJ : fel J) (eS : fel S),
  f32_transform E dl zt k0 r0 J S T b0 eJ eS -> f32_transform E dl zt k1 false I J T b1 eI eJ -> f32_transform E dl zt k2 false P I T b2 eP eI -> k0 * k1 * k2 * (dl + bpow radix2 (-24)) <= / 2000 ->
  forall (dP : Dflt P) (dI : Dflt I) (dJ : Dflt J) (dS : Dflt S) (dT : Dflt T) zo, zip_ok zo ->
  let sp := mk_space3 b0 b1 b2 in let n0 := len_phys b0 in let n1 := len_phys b1 in let n2 := len_phys b2 in let m0 := len_spec b0 in let m1 := len_spec b1 in let m2 := len_spec b2 in
  forall a : arr S, proper [m0; m1; m2] a -> (forall i j k, (i < m0)%nat -> (j < m1)%nat -> (k < m2)%nat -> ef eS (get a [i; j; k])) ->
  let Sum := rsum m0 (fun i => rsum m1 (fun j => rsum m2 (fun k => esize eS (get a [i; j; k])))) in
  Sum <= bpow radix2 50 ->
  forall q , (1 <= q)%nat -> 2 * INR q * (INR n0 * INR n1 * INR n2) * (2027 * (k0 * k1 * k2) * (dl + bpow radix2 (-24))) <= 1 ->
  exists y, repeat_trip q (fun x => let* c := s3_backward zo sp x in s3_forward zo sp c) a = Ok y /\ proper [m0; m1; m2] y /\
    forall i j k, (i < m0)%nat -> (j < m1)%nat -> (k < m2)%nat -> ef eS (get y [i; j; k]) /\
      edist eS (get y [i; j; k]) (kept b0 r0 i (ev eS (get a [i; j; k]))) <= 2 * INR q * (2027 * (k0 * k1 * k2) * (dl + bpow radix2 (-24)) * Sum + 242 * (k0 * k1 * k2) * (INR n0 * INR n1 * INR n2) ^ 2 * (bpow radix2 (-150) + zt)).
Proof.
  intros E HE dl zt Hd Hz k0 k1 k2 r0 P I J S T b0 b1 b2 eP eI eJ eS H0 H1 H2 HK dP dI dJ dS dT zo HZ sp n0 n1 n2 m0 m1 m2 a Pa Fa Sum Sa q Hq1 HQ.
  pose proof (one_le _ _ (one_le _ _ (tr_kap _ _ _ _ _ _ _ _ _ _ _ H0) (tr_kap _ _ _ _ _ _ _ _ _ _ _ H1)) (tr_kap _ _ _ _ _ _ _ _ _ _ _ H2)) as KP. pose proof (dl_small dl _ Hd KP HK) as Hdl.
  destruct (tr_good _ _ _ _ _ _ _ _ _ _ _ H0 Hdl Hz) as (_ & K0 & G0). assert (L0 : (1 <= m0 <= n0)%nat) by (eapply gs_n; exact G0). assert (M0 : 1 <= INR m0) by (apply (le_INR 1); lia). assert (MN0 : INR m0 <= INR n0) by (apply le_INR; lia). assert (N0 : 1 <= INR n0) by lra.
  destruct (tr_good _ _ _ _ _ _ _ _ _ _ _ H1 Hdl Hz) as (_ & K1 & G1). assert (L1 : (1 <= m1 <= n1)%nat) by (eapply gs_n; exact G1). assert (M1 : 1 <= INR m1) by (apply (le_INR 1); lia). assert (MN1 : INR m1 <= INR n1) by (apply le_INR; lia). assert (N1 : 1 <= INR n1) by lra.
  destruct (tr_good _ _ _ _ _ _ _ _ _ _ _ H2 Hdl Hz) as (_ & K2 & G2). assert (L2 : (1 <= m2 <= n2)%nat) by (eapply gs_n; exact G2). assert (M2 : 1 <= INR m2) by (apply (le_INR 1); lia). assert (MN2 : INR m2 <= INR n2) by (apply le_INR; lia). assert (N2 : 1 <= INR n2) by lra.
  pose proof (prod_ge_1 _ _ (prod_ge_1 _ _ N0 N1) N2) as NG. set (N := INR n0 * INR n1 * INR n2) in *.
  set (w := dl + bpow radix2 (-24)) in *. assert (Hu : 0 < bpow radix2 (-24)) by apply bpow_gt_0. assert (Hw : bpow radix2 (-24) <= w) by (unfold w; lra). pose proof (et_ok zt Hz) as Het. set (et := bpow radix2 (-150) + zt) in *.
  assert (He : 0 <= 2027 * (k0 * k1 * k2) * w) by (apply Rmult_le_pos; lra).
  assert (Ht : 0 <= 242 * (k0 * k1 * k2) * N ^ 2 * et) by (apply Rmult_le_pos; [apply Rmult_le_pos; [lra|apply pow_le; lra]|lra]).
  assert (S0 : 0 <= Sum) by (unfold Sum; apply rsum_pos; intros; apply rsum_pos; intros; apply rsum_pos; intros; apply esize_pos).
  assert (HM : 0 <= INR m0 * INR m1 * INR m2 <= N). { split; [pose proof (prod_ge_1 _ _ (prod_ge_1 _ _ M0 M1) M2); lra|exact (prod_le _ _ _ _ (prod_ge_1 _ _ M0 M1) M2 (prod_le _ _ _ _ M0 M1 MN0 MN1) MN2)]. }
  assert (RG : 2 * Sum + 2 * INR q * (INR m0 * INR m1 * INR m2) * (242 * (k0 * k1 * k2) * N ^ 2 * et) <= bpow radix2 60).
  { apply top_ok. exact Sa. destruct q as [|q]; [cbn [INR]; rewrite Rmult_0_r, !Rmult_0_l; change (0 <= 2 * bpow radix2 23 * (bpow radix2 23 / 33 * (bpow radix2 23 / 33)) * (1001 / 1000)); pose proof (bpow_gt_0 radix2 23); repeat apply Rmult_le_pos; lra|].
    eapply Rle_trans; [apply (trips_less _ _ N); [apply pos_INR|apply HM|exact Ht]|]. apply (trips_range (bpow radix2 (-24)) (bpow radix2 23) _ N ((k0 * k1 * k2)) w 2027 242 et); auto. apply half_A. rewrite S_INR; pose proof (pos_INR q); lra. lra. lra.
     }
  destruct (many_trips (D3 m0 m1 m2) (S3 m0 m1 m2) _ (isum3 m0 m1 m2) (fun x => proper [m0; m1; m2] x /\ (forall i j k, (i < m0)%nat -> (j < m1)%nat -> (k < m2)%nat -> ef eS (get x [i; j; k])))
    (fun x p => ev eS (get x [snd (fst (fst p)); snd (fst p); snd p])) (fun p z => kept b0 r0 (snd (fst (fst p))) z) ltac:(intros; apply kept_twice) ltac:(intros; apply kept_close) ltac:(intros; apply kept_le)
    (2027 * (k0 * k1 * k2) * w) (242 * (k0 * k1 * k2) * N ^ 2 * et) (bpow radix2 60) (fun x => let* c := s3_backward zo sp x in s3_forward zo sp c) He Ht ltac:(rewrite ?Rmult_1_l; apply HM)
    ) with (k := q) (x := a) as (y & Ey & [Py Fy] & Ny & Zy).
  - intros x [Px Fx] Sx. destruct (C67_space3_spectral_round_trip_f32 E HE dl zt Hd Hz k0 k1 k2 r0 P I J S T b0 b1 b2 eP eI eJ eS H0 H1 H2 HK dP dI dJ dS dT zo HZ x Px Fx Sx) as (c & y & Ec & Ey & Py & Hy).
    exists y. split. { change sp with (mk_space3 b0 b1 b2). rewrite Ec. exact Ey. } split. { split; [exact Py|]. intros i j k; intros; apply Hy; auto. }
    intros p Hp. destruct Hp as [[[_ Hp0] Hp1] Hp2]. apply Hy; auto.
  - split; auto.
  - rewrite ?Rmult_1_l. eapply Rle_trans; [|exact HQ]. apply trips_less; [apply pos_INR|apply HM|exact He].
  - rewrite ?Rmult_1_l. exact RG.
  - exists y. split; [exact Ey|]. split; [exact Py|]. intros i j k; intros. split; [apply Fy; auto|].
    assert (q0 : q <> 0%nat) by lia. exact (Ny q0 (tt, i, j, k) ltac:(split; [split; [split; [constructor|auto]|auto]|auto])).
Qed.
Print Assumptions C69_space3_coefficients_f32.
