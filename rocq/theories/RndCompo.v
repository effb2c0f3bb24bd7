(** Rounding errors of the composite transforms (Dirichlet, Neumann) on top of an
    accurate DCT (C55). *)
From Coq Require Import List Arith ZArith Reals Bool Lra Lia.
From Verif Require Import Base Num Linalg Stencils Cheb ChebDct Compo CompoProofs AnyArith ExtLib Rounding RndTdma RndDirichlet RndNeumann RndCheb LibAcc PropRound.
Import ListNotations.
Local Open Scope R_scope.

Section Near.
Context {A : Type} {N : Num A} {u eta : R} {rnd : R -> R} {zmax : Z} {inr : R -> Prop} {fin : A -> Prop} {val : A -> R}
  (FA : float_arith N u eta rnd zmax inr fin val) {T : Type} {V : Vec A T} {VC : VecC N T V}.
Let RN := fa_rnd _ _ _ _ _ _ _ _ FA.

(** from_ortho of coefficients within D of [g] is near the solution [c] of the
    normal equations with right-hand side [g] *)
Lemma dir_from_near n (a o x : list T) p (c g : nat -> R) Cm Gm D : (5 <= n)%nat -> 3 * (INR n + 1) ^ 2 * (u + eta) <= 1 ->
  length a = n -> length o = (n - 2)%nat ->
  compo_from_ortho (mk_compo n (n - 2) (mk_cheb n n) (Dirichlet (dir_st2 (n - 2)))) a o = Ok x ->
  (forall p j, (j < n - 2)%nat -> fin (cp p x.[j])) ->
  0 <= D -> (forall j, Rabs (c j) <= Cm) -> (forall j, (j < n)%nat -> Rabs (g j) <= Gm) ->
  (forall j, (j < n - 2)%nat -> g j - g (j + 2)%nat = 2 * c j - zprev c j - znext (n - 2) c j) ->
  (forall j, (j < n)%nat -> Rabs (X (val := val) p a j - g j) <= D) ->
  forall k, (k < n - 2)%nat -> Rabs (X (val := val) p x k - c k) <= (INR n + 1) ^ 2 * (D / 7 + u * Gm / 8 + 3 * u * Cm + 2 * eta * (1 + 2 * Cm)).
Proof.
  intros Hn Hsm La Lo Ex FX D0 HG HGm HC HA k Hk.
  destruct (dir_from_rows FA n a o x Hn La Lo Ex FX) as [Lx HR]. destruct (HR p) as [_ Hr]. clear HR.
  pose proof (rn_u _ _ _ RN) as [U U1]. pose proof (rn_eta _ _ _ RN) as H0.
  assert (Cm0 : 0 <= Cm). { specialize (HG 0%nat). pose proof (Rabs_pos (c 0%nat)). lra. }
  set (Xx := X (val := val) p x) in *. set (Xa := X (val := val) p a) in *.
  set (z := fun j => Xx j - c j).
  destruct (bounded_max (n - 2) z) as (Zm & Z0 & HZ & ZA).
  assert (HX : forall j, (j < n - 2)%nat -> Rabs (Xx j) <= Cm + Zm).
  { intros j Hj. replace (Xx j) with (c j + z j) by (unfold z; ring). eapply Rle_trans; [apply Rabs_triang|].
    specialize (HG j). specialize (HZ j Hj). lra. }
  specialize (Hr (Cm + Zm) HX).
  set (rho := 33 / 16 * D + 2 * u * Gm + 48 * u * Cm + 48 * u * Zm + 24 * eta * (1 + 2 * (Cm + Zm))).
  pose proof (Rmult_le_pos u Cm U Cm0) as uC. pose proof (Rmult_le_pos u Zm U Z0) as uZ. pose proof (Rmult_le_pos eta Cm H0 Cm0) as eC. pose proof (Rmult_le_pos eta Zm H0 Z0) as eZ.
  assert (Gm0 : 0 <= Gm). { specialize (HGm 0%nat ltac:(lia)). pose proof (Rabs_pos (g 0%nat)). lra. }
  pose proof (Rmult_le_pos u Gm U Gm0) as uG.
  assert (R0 : 0 <= rho) by (unfold rho; lra).
  assert (HM : forall j, (j < n - 2)%nat -> Rabs (z j) <= rho * (INR (n - 2) + 3) * (INR (n - 2) + 3) / 32).
  { apply (max_principle_abs (n - 2) z rho R0). intros j Hj. destruct (Hr j Hj) as (bb & B1 & B2).
    pose proof (HA j ltac:(lia)) as A1. pose proof (HA (j + 2)%nat ltac:(lia)) as A2.
    pose proof (HC j Hj) as DD.
    assert (A3 : Rabs ((Xa j - Xa (j + 2)%nat) - (g j - g (j + 2)%nat)) <= 2 * D).
    { replace (Xa j - Xa (j + 2)%nat - (g j - g (j + 2)%nat)) with ((Xa j - g j) + - (Xa (j + 2)%nat - g (j + 2)%nat)) by ring.
      eapply Rle_trans; [apply Rabs_triang|]. rewrite Rabs_Ropp. lra. }
    set (e := (Xa j - Xa (j + 2)%nat) - (g j - g (j + 2)%nat)) in *.
    assert (A4 : Rabs (Xa j - Xa (j + 2)%nat) <= 2 * Gm + 2 * D).
    { replace (Xa j - Xa (j + 2)%nat) with ((g j + - g (j + 2)%nat) + e) by (unfold e; ring).
      eapply Rle_trans; [apply Rabs_triang|]. pose proof (Rabs_triang (g j) (- g (j + 2)%nat)) as TT. rewrite Rabs_Ropp in TT.
      pose proof (HGm j ltac:(lia)). pose proof (HGm (j + 2)%nat ltac:(lia)). lra. }
    assert (A5 : u * Rabs (Xa j - Xa (j + 2)%nat) <= 2 * (u * Gm) + / 32 * D).
    { pose proof (Rmult_le_compat_l u _ _ U A4). assert (u * D <= / 64 * D) by (apply Rmult_le_compat_r; auto). lra. }
    replace (2 * z j - zprev z j - znext (n - 2) z j) with
      ((2 * Xx j - zprev Xx j - znext (n - 2) Xx j - bb) + ((bb - (Xa j - Xa (j + 2)%nat)) + e)).
    2: { unfold e. rewrite DD. unfold z, zprev, znext. destruct (j <? 2), (j + 2 <? n - 2); ring. }
    eapply Rle_trans; [apply Rabs_triang|]. pose proof (Rabs_triang (bb - (Xa j - Xa (j + 2)%nat)) e). unfold rho. fold Xx Xa in B1, B2. lra. }
  set (K := (INR n + 1) ^ 2) in *.
  assert (EK : forall r, r * (INR (n - 2) + 3) * (INR (n - 2) + 3) / 32 = K * r / 32).
  { intros r. rewrite minus_INR by lia. replace (INR 2) with 2 by (cbn; ring). unfold K. cbn. field. }
  assert (K0 : 0 <= K). { apply pow_le. pose proof (pos_INR n). lra. }
  assert (ZM : Zm <= K * (D / 7 + u * Gm / 8 + 3 * u * Cm + 2 * eta * (1 + 2 * Cm))).
  { assert (Q : 0 <= K * (D / 7 + u * Gm / 8 + 3 * u * Cm + 2 * eta * (1 + 2 * Cm))) by (apply Rmult_le_pos; auto; lra).
    destruct ZA as [->|(j & Hj & EZ)]; auto. specialize (HM j Hj). rewrite EK, <- EZ in HM. unfold rho in HM.
    pose proof (Rmult_le_pos K _ K0 uC) as KuC. pose proof (Rmult_le_pos K _ K0 uG) as KuG. pose proof (Rmult_le_pos K _ K0 H0) as Ke. pose proof (Rmult_le_pos K _ K0 eC) as KeC. pose proof (Rmult_le_pos K _ K0 D0) as KD.
    assert (S : K * (u + eta) * Zm <= / 3 * Zm) by (apply Rmult_le_compat_r; lra). lra. }
  specialize (HZ k Hk). unfold z in HZ. lra.
Qed.

Lemma neu_from_near n (a o x : list T) p (c g : nat -> R) Cm Gm D : (5 <= n)%nat -> (Z.of_nat n * Z.of_nat n <= zmax)%Z -> 10 * (INR n ^ 2 * (u + eta)) <= 1 ->
  length a = n -> length o = (n - 2)%nat ->
  compo_from_ortho (mk_compo n (n - 2) (mk_cheb n n) (Neumann (neu_st2 (n - 2)))) a o = Ok x ->
  (forall p j, (j < n - 2)%nat -> fin (cp p x.[j])) ->
  0 <= D -> (forall j, Rabs (c j) <= Cm) -> (forall j, (j < n)%nat -> Rabs (g j) <= Gm) ->
  (forall j, (j < n - 2)%nat -> g j - nq j * g (j + 2)%nat = neu_row (n - 2) c j) ->
  (forall j, (j < n)%nat -> Rabs (X (val := val) p a j - g j) <= D) ->
  forall k, (k < n - 2)%nat -> Rabs (X (val := val) p x k - c k) <= INR n ^ 2 * (D / 2 + u * Gm + 10 * u * Cm + eta * (5 + 10 * Cm + Gm)).
Proof.
  intros Hn Hz Hsm La Lo Ex FX D0 HG HGm HC HA k Hk.
  replace (INR n ^ 2) with (INR n * INR n) in * by ring.
  pose proof (rn_u _ _ _ RN) as [U U1]. pose proof (rn_eta _ _ _ RN) as H0.
  assert (N5 : 5 <= INR n). { apply le_INR in Hn. replace (INR 5) with 5 in Hn by (cbn; ring). auto. }
  set (K := INR n * INR n) in *. assert (K25 : 25 <= K) by (unfold K; nra).
  assert (Ks : 0 <= K * (u + eta)) by (apply Rmult_le_pos; lra).
  assert (Hs : K * (u + eta) <= 1) by lra.
  assert (Se : u + eta <= / 250). { assert (25 * (u + eta) <= K * (u + eta)) by (apply Rmult_le_compat_r; lra). lra. }
  destruct (neu_from_rows FA n a o x Hn Hz Hs La Lo Ex FX) as [Lx HR]. destruct (HR p) as [_ Hr]. clear HR.
  assert (Cm0 : 0 <= Cm). { specialize (HG 0%nat). pose proof (Rabs_pos (c 0%nat)). lra. }
  set (Xx := X (val := val) p x) in *. set (Xa := X (val := val) p a) in *.
  set (z := fun j => Xx j - c j).
  destruct (bounded_max (n - 2) z) as (Zm & Z0 & HZ & ZA).
  assert (HX : forall j, (j < n - 2)%nat -> Rabs (Xx j) <= Cm + Zm).
  { intros j Hj. replace (Xx j) with (c j + z j) by (unfold z; ring). eapply Rle_trans; [apply Rabs_triang|].
    specialize (HG j). specialize (HZ j Hj). lra. }
  pose proof (Rmult_le_pos u Cm U Cm0) as uC. pose proof (Rmult_le_pos u Zm U Z0) as uZ. pose proof (Rmult_le_pos eta Cm H0 Cm0) as eC. pose proof (Rmult_le_pos eta Zm H0 Z0) as eZ.
  assert (Gm0 : 0 <= Gm). { specialize (HGm 0%nat ltac:(lia)). pose proof (Rabs_pos (g 0%nat)). lra. }
  pose proof (Rmult_le_pos u Gm U Gm0) as uG. pose proof (Rmult_le_pos eta Gm H0 Gm0) as eG.
  set (Am := Gm + D).
  assert (HAm : forall j, (j < n)%nat -> Rabs (Xa j) <= Am).
  { intros j Hj. replace (Xa j) with (g j + (Xa j - g j)) by ring. eapply Rle_trans; [apply Rabs_triang|]. pose proof (HA j Hj). pose proof (HGm j Hj). unfold Am. lra. }
  specialize (Hr Am (Cm + Zm) HAm HX).
  set (rho := 21 / 10 * D + u * (56 * Cm + 5 * Gm + 56 * Zm) + eta * (26 + 53 * Cm + 2 * Gm + 53 * Zm)).
  assert (HM : forall j, (j < n - 2)%nat -> Rabs (neu_row (n - 2) z j) <= rho).
  { intros j Hj. specialize (Hr j Hj). pose proof (HA j ltac:(lia)) as A1. pose proof (HA (j + 2)%nat ltac:(lia)) as A2. pose proof (nq_range j) as Q.
    pose proof (HC j Hj) as DD.
    replace (neu_row (n - 2) z j) with ((neu_row (n - 2) Xx j - (Xa j - nq j * Xa (j + 2)%nat)) + ((Xa j - g j) + - (nq j * (Xa (j + 2)%nat - g (j + 2)%nat)))).
    2: { transitivity (neu_row (n - 2) Xx j - neu_row (n - 2) c j). rewrite <- DD. ring. unfold neu_row, z. ring. }
    eapply Rle_trans; [apply Rabs_triang|]. eapply Rle_trans; [apply Rplus_le_compat_l, Rabs_triang|]. rewrite Rabs_Ropp, (Rabs_mult (nq j)), (Rabs_pos_eq (nq j)) by lra.
    assert (A3 : nq j * Rabs (Xa (j + 2)%nat - g (j + 2)%nat) <= 1 * D) by (apply Rmult_le_compat; try lra; apply Rabs_pos).
    assert (S1 : u * D <= / 64 * D) by (apply Rmult_le_compat_r; auto). assert (S2 : (u + eta) * D <= / 250 * D) by (apply Rmult_le_compat_r; lra).
    assert (S3 : u * Am = u * Gm + u * D) by (unfold Am; ring). assert (S4 : eta * Am = eta * Gm + eta * D) by (unfold Am; ring).
    pose proof (Rmult_le_pos _ _ U D0). pose proof (Rmult_le_pos _ _ H0 D0).
    unfold rho. lra. }
  pose proof (neu_dominance n z rho ltac:(lia) HM) as DZ. fold K in DZ.
  assert (ZM : Zm <= K * (D / 2 + u * Gm + 10 * u * Cm + eta * (5 + 10 * Cm + Gm))).
  { assert (Q : 0 <= K * (D / 2 + u * Gm + 10 * u * Cm + eta * (5 + 10 * Cm + Gm))) by (apply Rmult_le_pos; lra).
    destruct ZA as [->|(j & Hj & EZ)]; auto. specialize (DZ j Hj). rewrite <- EZ in DZ. unfold rho in DZ.
    pose proof (Rmult_le_pos K _ ltac:(lra) uC) as KuC. pose proof (Rmult_le_pos K _ ltac:(lra) uG) as KuG. pose proof (Rmult_le_pos K _ ltac:(lra) eG) as KeG. pose proof (Rmult_le_pos K _ ltac:(lra) H0) as Ke. pose proof (Rmult_le_pos K _ ltac:(lra) eC) as KeC. pose proof (Rmult_le_pos K _ ltac:(lra) eZ) as KeZ.
    pose proof (Rmult_le_pos K _ ltac:(lra) D0) as KD.
    assert (S : K * (u + eta) * Zm <= / 10 * Zm) by (apply Rmult_le_compat_r; lra). lra. }
  specialize (HZ k Hk). unfold z in HZ. lra.
Qed.
End Near.

(** ** The images of [c] under the stencils solve the normal equations *)
Lemma dir_coef_rows n (c : nat -> R) j : (j < n - 2)%nat -> dir_coef n c j - dir_coef n c (j + 2) = 2 * c j - zprev c j - znext (n - 2) c j.
Proof.
  intros Hj. unfold dir_coef, zprev, znext. destruct (Nat.ltb_spec j (n - 2)); [|lia]. destruct (Nat.ltb_spec (j + 2) 2); [lia|].
  replace (j + 2 - 2)%nat with j by lia. destruct (j <? 2), (j + 2 <? n - 2); ring.
Qed.
Lemma dir_coef_le n (c : nat -> R) Cm j : 0 <= Cm -> (forall j, Rabs (c j) <= Cm) -> Rabs (dir_coef n c j) <= 2 * Cm.
Proof.
  intros H0 HG. unfold dir_coef, Rminus. eapply Rle_trans; [apply Rabs_triang|]. rewrite Rabs_Ropp.
  pose proof (HG j). pose proof (HG (j - 2)%nat). destruct (j <? n - 2), (j <? 2); rewrite ?Rabs_R0; lra.
Qed.
Lemma neu_coef_rows n (c : nat -> R) j : (j < n - 2)%nat -> neu_coef n c j - nq j * neu_coef n c (j + 2) = neu_row (n - 2) c j.
Proof.
  intros Hj. unfold neu_coef, neu_row, qprev, qnext. destruct (Nat.ltb_spec j (n - 2)); [|lia]. destruct (Nat.ltb_spec (j + 2) 2); [lia|].
  replace (j + 2 - 2)%nat with j by lia. destruct (j <? 2), (j + 2 <? n - 2); ring.
Qed.
Lemma neu_coef_le n (c : nat -> R) Cm j : 0 <= Cm -> (forall j, Rabs (c j) <= Cm) -> Rabs (neu_coef n c j) <= 2 * Cm.
Proof.
  intros H0 HG. unfold neu_coef, Rminus. eapply Rle_trans; [apply Rabs_triang|]. rewrite Rabs_Ropp. pose proof (nq_range (j - 2)) as Q.
  pose proof (HG j) as G1. pose proof (HG (j - 2)%nat) as G2. assert (nq (j - 2) * Rabs (c (j - 2)%nat) <= 1 * Cm). { apply Rmult_le_compat; try lra. apply Rabs_pos. }
  destruct (j <? n - 2), (j <? 2); rewrite ?Rabs_R0, ?Rabs_mult, ?(Rabs_pos_eq (nq (j - 2))) by lra; lra.
Qed.


(** ** The sums of magnitudes *)
Lemma rsum_elem n (f : nat -> R) k : (forall j, (j < n)%nat -> 0 <= f j) -> (k < n)%nat -> f k <= rsum n f.
Proof.
  intros H Hk. induction n as [|n IH]; [lia|]. cbn [rsum]. destruct (Nat.eq_dec k n) as [->|].
  - assert (0 <= rsum n f) by (apply rsum_pos; intros; apply H; lia). lra.
  - pose proof (H n ltac:(lia)). specialize (IH ltac:(intros; apply H; lia) ltac:(lia)). lra.
Qed.
Lemma rsum_head2 n f : (2 <= n)%nat -> rsum n (fun k => if (k <? n - 2)%nat then f k else 0) = rsum (n - 2) f.
Proof.
  intros Hn. replace n with ((n - 2) + 2)%nat at 1 by lia. rewrite rsum_split, (rsum_0 2).
  - rewrite Rplus_0_r. apply rsum_ext. intros k Hk. destruct (Nat.ltb_spec k (n - 2)); auto; lia.
  - intros k Hk. destruct (Nat.ltb_spec (n - 2 + k) (n - 2)); auto; lia.
Qed.
Lemma rsum_tail2 n f : (2 <= n)%nat -> rsum n (fun k => if (k <? 2)%nat then 0 else f (k - 2)%nat) = rsum (n - 2) f.
Proof.
  intros Hn. replace n with (2 + (n - 2))%nat at 1 by lia. rewrite rsum_split, (rsum_0 2).
  - rewrite Rplus_0_l. apply rsum_ext. intros k Hk. destruct (Nat.ltb_spec (2 + k) 2); [lia|]. replace (2 + k - 2)%nat with k by lia. auto.
  - intros k Hk. destruct (Nat.ltb_spec k 2); auto; lia.
Qed.
Lemma neu_coef_abs n (c : nat -> R) : (2 <= n)%nat -> rsum n (fun k => Rabs (neu_coef n c k)) <= 2 * rsum (n - 2) (fun k => Rabs (c k)).
Proof.
  intros Hn. eapply Rle_trans.
  { apply (rsum_le n _ (fun k => (if k <? n - 2 then Rabs (c k) else 0) + (if k <? 2 then 0 else Rabs (c (k - 2)%nat)))).
    intros k Hk. unfold neu_coef, Rminus. eapply Rle_trans; [apply Rabs_triang|]. rewrite Rabs_Ropp.
    apply Rplus_le_compat. destruct (k <? n - 2); rewrite ?Rabs_R0; lra.
    destruct (k <? 2); rewrite ?Rabs_R0; [lra|]. pose proof (nq_range (k - 2)) as Q. rewrite Rabs_mult, (Rabs_pos_eq (nq _)) by lra.
    rewrite <- (Rmult_1_l (Rabs (c _))) at 2. apply Rmult_le_compat_r. apply Rabs_pos. lra. }
  rewrite rsum_add, (rsum_head2 n (fun k => Rabs (c k))), (rsum_tail2 n (fun k => Rabs (c k))) by auto. lra.
Qed.

Section Compo.
Context {A : Type} {N : Num A} {u eta : R} {rnd : R -> R} {zmax : Z} {inr : R -> Prop} {fin : A -> Prop} {val : A -> R}
  (FA : float_arith N u eta rnd zmax inr fin val) (E : ext A).
Let RN := fa_rnd _ _ _ _ _ _ _ _ FA.
Notation V_ l := (fun j => val l.[j]).
Notation dirc n := (mk_compo n (n - 2) (mk_cheb n n) (Dirichlet (dir_st2 (n - 2)))).
Notation neuc n := (mk_compo n (n - 2) (mk_cheb n n) (Neumann (neu_st2 (n - 2)))).

(** ** the coefficients to_ortho hands to the DCT *)
Lemma dir_scratch n (c o a : list A) : (4 <= n)%nat -> length c = (n - 2)%nat -> length o = n ->
  compo_to_ortho (V := vec_self) (dirc n) c o = Ok a -> (forall k, (k < n)%nat -> fin a.[k]) ->
  let S := rsum (n - 2) (fun k => Rabs (val c.[k])) in
  length a = n /\ (forall k, (k < n - 2)%nat -> fin c.[k]) /\
  (forall k, (k < n)%nat -> Rabs (val a.[k] - dir_coef n (V_ c) k) <= 2 * u * S) /\
  rsum n (fun k => Rabs (val a.[k] - dir_coef n (V_ c) k)) <= 2 * u * S /\ rsum n (fun k => Rabs (val a.[k])) <= 2 * S + 2 * u * S.
Proof.
  intros Hn Lc Lo Ea Fa S.
  assert (La : length a = n). { pose proof (dir_to_ortho n c o Hn Lc Lo) as W. rewrite Ea in W. apply W. } split; auto.
  pose proof (fun k Hk => dir_to_ortho_err FA (VC := vecC_self N) n c o a tt Hn Lc Lo Ea k Hk (Fa k Hk)) as HT.
  split. { intros k Hk. apply (HT k); lia. }
  pose proof (rn_u _ _ _ RN) as [U U1]. pose proof (dir_coef_abs n (V_ c) ltac:(lia)) as DA. cbv beta in DA. fold S in DA.
  assert (HD : rsum n (fun k => Rabs (val a.[k] - dir_coef n (V_ c) k)) <= 2 * u * S).
  { eapply Rle_trans. apply rsum_le. intros k Hk. exact (proj1 (HT k Hk)). rewrite rsum_scal_l.
    replace (2 * u * S) with (u * (2 * S)) by ring. apply Rmult_le_compat_l; auto. }
  split; [|split; auto].
  - intros k Hk. eapply Rle_trans; [|exact HD]. apply (rsum_elem n (fun k => Rabs (val a.[k] - dir_coef n (V_ c) k))); auto. intros; apply Rabs_pos.
  - eapply Rle_trans. { apply (rsum_le n _ (fun k => Rabs (dir_coef n (V_ c) k) + Rabs (val a.[k] - dir_coef n (V_ c) k))). intros k Hk.
      replace (val a.[k]) with (dir_coef n (V_ c) k + (val a.[k] - dir_coef n (V_ c) k)) at 1 by ring. apply Rabs_triang. }
    rewrite rsum_add. eapply Rle_trans; [apply Rplus_le_compat; [exact DA|exact HD]|]. lra.
Qed.
Lemma neu_scratch n (c o a : list A) : (4 <= n)%nat -> (Z.of_nat n * Z.of_nat n <= zmax)%Z -> INR n * eta <= u -> length c = (n - 2)%nat -> length o = n ->
  compo_to_ortho (V := vec_self) (neuc n) c o = Ok a -> (forall k, (k < n)%nat -> fin a.[k]) ->
  let S := rsum (n - 2) (fun k => Rabs (val c.[k])) in
  length a = n /\ (forall k, (k < n - 2)%nat -> fin c.[k]) /\
  (forall k, (k < n)%nat -> Rabs (val a.[k] - neu_coef n (V_ c) k) <= 6 * u * S + 2 * INR n * eta) /\
  rsum n (fun k => Rabs (val a.[k] - neu_coef n (V_ c) k)) <= 6 * u * S + 2 * INR n * eta /\ rsum n (fun k => Rabs (val a.[k])) <= 2 * S + 6 * u * S + 2 * INR n * eta.
Proof.
  intros Hn Hz Hs Lc Lo Ea Fa S.
  assert (La : length a = n). { pose proof (neu_to_ortho n c o Hn Lc Lo) as W. rewrite Ea in W. apply W. } split; auto.
  pose proof (fun k Hk => neu_to_ortho_err FA (VC := vecC_self N) n c o a tt Hn Hz Lc Lo Ea k Hk (Fa k Hk)) as HT.
  split. { intros k Hk. apply (HT k); lia. }
  pose proof (rn_u _ _ _ RN) as [U U1]. pose proof (rn_eta _ _ _ RN) as H0. pose proof (neu_coef_abs n (V_ c) ltac:(lia)) as DA. cbv beta in DA. fold S in DA.
  assert (N4 : 4 <= INR n). { apply le_INR in Hn. replace (INR 4) with 4 in Hn by (cbn; ring). auto. }
  assert (S0 : 0 <= S) by (apply rsum_pos; intros; apply Rabs_pos).
  assert (E4 : 4 * eta <= u). { apply Rle_trans with (2 := Hs). apply Rmult_le_compat_r; auto. }
  assert (HD : rsum n (fun k => Rabs (val a.[k] - neu_coef n (V_ c) k)) <= 6 * u * S + 2 * INR n * eta).
  { eapply Rle_trans. apply rsum_le. intros k Hk. exact (proj1 (HT k Hk)).
    eapply Rle_trans. { apply (rsum_le n _ (fun k => u * Rabs (neu_coef n (V_ c) k) + ((3 * u + 2 * eta) * (if k <? 2 then 0 else Rabs (val c.[k - 2])) + 2 * eta))). intros k Hk.
      apply Rplus_le_compat_l. destruct (k <? 2). rewrite Rmult_0_r. lra. pose proof (nq_range (k - 2)) as Q.
      assert (G : forall w, 0 <= w -> 3 * u * (nq (k - 2) * w) + 2 * eta * (1 + w) <= (3 * u + 2 * eta) * w + 2 * eta).
      { intros w Hw. assert (G : nq (k - 2) * w <= 1 * w) by (apply Rmult_le_compat_r; lra). apply (Rmult_le_compat_l u) in G; auto. lra. }
      apply G, Rabs_pos. }
    rewrite !rsum_add, rsum_const, !rsum_scal_l, (rsum_tail2 n (fun k => Rabs (val c.[k]))) by lia. fold S.
    apply (Rmult_le_compat_l u) in DA; auto. assert (4 * eta * S <= u * S) by (apply Rmult_le_compat_r; auto). assert (0 <= u * S) by (apply Rmult_le_pos; auto). lra. }
  split; [|split; auto].
  - intros k Hk. eapply Rle_trans; [|exact HD]. apply (rsum_elem n (fun k => Rabs (val a.[k] - neu_coef n (V_ c) k))); auto. intros; apply Rabs_pos.
  - eapply Rle_trans. { apply (rsum_le n _ (fun k => Rabs (neu_coef n (V_ c) k) + Rabs (val a.[k] - neu_coef n (V_ c) k))). intros k Hk.
      replace (val a.[k]) with (neu_coef n (V_ c) k + (val a.[k] - neu_coef n (V_ c) k)) at 1 by ring. apply Rabs_triang. }
    rewrite rsum_add. eapply Rle_trans; [apply Rplus_le_compat; [exact DA|exact HD]|]. lra.
Qed.

(** ** backward *)
Lemma back_near n dl zt (a o y : list A) (g : nat -> R) Da Sa : (2 <= n)%nat -> 0 <= dl <= 1 -> 0 <= zt -> dct1_accurate E fin val n dl zt ->
  length a = n -> length o = n -> cheb_backward_x E (mk_cheb n n) a o = Ok y -> (forall k, (k < n)%nat -> fin y.[k]) ->
  rsum n (fun k => Rabs (val a.[k] - g k)) <= Da -> rsum n (fun k => Rabs (val a.[k])) <= Sa ->
  length y = n /\ forall j, (j < n)%nat -> Rabs (val y.[j] - Bex n g j) <= (21 / 10 * dl + u) * Sa + Da + 2 * INR n * eta + zt.
Proof.
  intros Hn Hd Hzt HE La Lo Ey Fy HD HS. destruct (cheb_backward_err FA E n dl zt a o y Hn Hd Hzt HE La Lo Ey Fy) as (Ly & _ & HB). split; auto.
  intros j Hj. specialize (HB j Hj). unfold bwd_err in HB. pose proof (rn_u _ _ _ RN) as [U U1].
  pose proof (Bex_sub n (V_ a) g j) as BS. pose proof (Bex_abs n (fun k => val a.[k] - g k) j Hn) as BA. cbv beta in BS. rewrite BS in BA.
  replace (val y.[j] - Bex n g j) with ((val y.[j] - Bex n (V_ a) j) + (Bex n (V_ a) j - Bex n g j)) by ring.
  eapply Rle_trans; [apply Rabs_triang|]. assert ((21 / 10 * dl + u) * rsum n (fun k => Rabs (val a.[k])) <= (21 / 10 * dl + u) * Sa) by (apply Rmult_le_compat_l; lra). lra.
Qed.
Lemma dir_backward_err n dl zt (c o y : list A) : (4 <= n)%nat -> 0 <= dl <= 1 -> 0 <= zt -> dct1_accurate E fin val n dl zt ->
  length c = (n - 2)%nat -> length o = n -> compo_backward_x E (dirc n) c o = Ok y -> (forall k, (k < n)%nat -> fin y.[k]) ->
  length y = n /\ (forall k, (k < n - 2)%nat -> fin c.[k]) /\
  forall j, (j < n)%nat -> Rabs (val y.[j] - Bex n (dir_coef n (V_ c)) j) <= (5 * dl + 5 * u) * rsum (n - 2) (fun k => Rabs (val c.[k])) + 2 * INR n * eta + zt.
Proof.
  intros Hn Hd Hzt HE Lc Lo Ey Fy. unfold compo_backward_x in Ey. cbn [p_ortho compo_len_orth] in Ey. unfold compo_len_orth in Ey. cbn [p_ortho cheb_len_orth] in Ey.
  set (s0 := repeat n0 _) in Ey. assert (L0 : length s0 = n) by (unfold s0; rewrite repeat_length; reflexivity).
  destruct (compo_to_ortho (dirc n) c s0) as [a| |] eqn:Ea; cbn [bind] in Ey; try discriminate.
  assert (La : length a = n). { pose proof (dir_to_ortho n c s0 Hn Lc L0) as W. rewrite Ea in W. apply W. }
  destruct (cheb_backward_err FA E n dl zt a o y ltac:(lia) Hd Hzt HE La Lo Ey Fy) as (_ & Fa & _).
  destruct (dir_scratch n c s0 a Hn Lc L0 Ea Fa) as (_ & Fc & _ & HD & HS).
  destruct (back_near n dl zt a o y _ _ _ ltac:(lia) Hd Hzt HE La Lo Ey Fy HD HS) as [Ly HB]. split; auto. split; auto.
  intros j Hj. eapply Rle_trans; [exact (HB j Hj)|]. set (S := rsum (n - 2) _). assert (S0 : 0 <= S) by (apply rsum_pos; intros; apply Rabs_pos).
  pose proof (rn_u _ _ _ RN) as [U U1]. assert (dS : 0 <= dl * S) by (apply Rmult_le_pos; lra). assert (uS : 0 <= u * S) by (apply Rmult_le_pos; lra).
  assert (u * (dl * S) <= / 64 * (dl * S)) by (apply Rmult_le_compat_r; auto). assert (u * (u * S) <= / 64 * (u * S)) by (apply Rmult_le_compat_r; auto). lra.
Qed.
Lemma neu_backward_err n dl zt (c o y : list A) : (4 <= n)%nat -> (Z.of_nat n * Z.of_nat n <= zmax)%Z -> INR n * eta <= u -> 0 <= dl <= 1 -> 0 <= zt -> dct1_accurate E fin val n dl zt ->
  length c = (n - 2)%nat -> length o = n -> compo_backward_x E (neuc n) c o = Ok y -> (forall k, (k < n)%nat -> fin y.[k]) ->
  length y = n /\ (forall k, (k < n - 2)%nat -> fin c.[k]) /\
  forall j, (j < n)%nat -> Rabs (val y.[j] - Bex n (neu_coef n (V_ c)) j) <= (5 * dl + 9 * u) * rsum (n - 2) (fun k => Rabs (val c.[k])) + 9 * INR n * eta + zt.
Proof.
  intros Hn Hz Hs Hd Hzt HE Lc Lo Ey Fy. unfold compo_backward_x in Ey. cbn [p_ortho compo_len_orth] in Ey. unfold compo_len_orth in Ey. cbn [p_ortho cheb_len_orth] in Ey.
  set (s0 := repeat n0 _) in Ey. assert (L0 : length s0 = n) by (unfold s0; rewrite repeat_length; reflexivity).
  destruct (compo_to_ortho (neuc n) c s0) as [a| |] eqn:Ea; cbn [bind] in Ey; try discriminate.
  assert (La : length a = n). { pose proof (neu_to_ortho n c s0 Hn Lc L0) as W. rewrite Ea in W. apply W. }
  destruct (cheb_backward_err FA E n dl zt a o y ltac:(lia) Hd Hzt HE La Lo Ey Fy) as (_ & Fa & _).
  destruct (neu_scratch n c s0 a Hn Hz Hs Lc L0 Ea Fa) as (_ & Fc & _ & HD & HS).
  destruct (back_near n dl zt a o y _ _ _ ltac:(lia) Hd Hzt HE La Lo Ey Fy HD HS) as [Ly HB]. split; auto. split; auto.
  intros j Hj. eapply Rle_trans; [exact (HB j Hj)|]. set (S := rsum (n - 2) _). assert (S0 : 0 <= S) by (apply rsum_pos; intros; apply Rabs_pos).
  pose proof (rn_u _ _ _ RN) as [U U1]. pose proof (rn_eta _ _ _ RN) as H0. pose proof (pos_INR n) as N0. set (ne := INR n * eta) in *. assert (ne0 : 0 <= ne) by (apply Rmult_le_pos; auto).
  assert (dS : 0 <= dl * S) by (apply Rmult_le_pos; lra). assert (uS : 0 <= u * S) by (apply Rmult_le_pos; lra).
  assert (u * (dl * S) <= / 64 * (dl * S)) by (apply Rmult_le_compat_r; auto). assert (u * (u * S) <= / 64 * (u * S)) by (apply Rmult_le_compat_r; auto).
  assert (dl * ne <= 1 * ne) by (apply Rmult_le_compat_r; lra). assert (u * ne <= / 64 * ne) by (apply Rmult_le_compat_r; lra).
  replace (2 * INR n * eta) with (2 * ne) by (unfold ne; ring). replace (9 * INR n * eta) with (9 * ne) by (unfold ne; ring). lra.
Qed.

(** ** forward after backward *)
Lemma dir_fwd_bwd_err n dl zt (c o1 y o2 x : list A) : (5 <= n)%nat -> (Z.of_nat n <= zmax)%Z -> INR n * eta <= u -> 3 * (INR n + 1) ^ 2 * (u + eta) <= 1 ->
  0 <= dl <= / 16 -> 0 <= zt -> dct1_accurate E fin val n dl zt ->
  length c = (n - 2)%nat -> length o1 = n -> length o2 = (n - 2)%nat ->
  compo_backward_x E (dirc n) c o1 = Ok y -> compo_forward_x E (dirc n) y o2 = Ok x -> (forall k, (k < n - 2)%nat -> fin x.[k]) ->
  (forall k, (k < n - 2)%nat -> fin c.[k]) /\
  forall k, (k < n - 2)%nat -> Rabs (val x.[k] - val c.[k]) <=
    (INR n + 1) ^ 2 * ((5 * dl + 12 * u) * rsum (n - 2) (fun k => Rabs (val c.[k])) + 3 * INR n * eta + zt).
Proof.
  intros Hn Hz Hs Hsm Hd Hzt HE Lc L1 L2 Ey Ex Fx.
  unfold compo_backward_x, compo_len_orth in Ey. cbn [p_ortho cheb_len_orth] in Ey. unfold compo_forward_x, compo_len_orth in Ex. cbn [p_ortho cheb_len_orth] in Ex.
  set (s0 := repeat n0 _) in Ey, Ex. assert (L0 : length s0 = n) by (unfold s0; rewrite repeat_length; reflexivity).
  destruct (compo_to_ortho (dirc n) c s0) as [a| |] eqn:Ea; cbn [bind] in Ey; try discriminate.
  destruct (cheb_forward_x E (mk_cheb n n) y s0) as [d| |] eqn:Ed; cbn [bind] in Ex; try discriminate.
  assert (La : length a = n). { pose proof (dir_to_ortho n c s0 ltac:(lia) Lc L0) as W. rewrite Ea in W. apply W. }
  assert (Ly : length y = n). { pose proof (cheb_backward_x_steps E n a o1 ltac:(lia) La L1) as W. rewrite Ey in W. destruct W as (b & Lb & -> & _). apply (HE b Lb). }
  assert (Ld : length d = n). { assert (LI : length (fwd_in n y) = n) by (unfold fwd_in; rewrite map_length, rev_length; auto).
    pose proof (cheb_forward_x_steps E n y s0 ltac:(lia) Ly L0 (proj1 (HE _ LI))) as W. rewrite Ed in W. apply W. }
  destruct (dir_from_rows FA (VC := vecC_self N) n d o2 x Hn Ld L2 Ex (fun _ => Fx)) as [_ HR]. destruct (HR tt) as [Fd _]. clear HR. cbn [cp vecC_self] in Fd.
  destruct (cheb_fwd_bwd_err FA E n dl zt a o1 y s0 d ltac:(lia) Hz Hs Hd Hzt HE La L1 L0 Ey Ed Fd) as [Fa HF].
  destruct (dir_scratch n c s0 a ltac:(lia) Lc L0 Ea Fa) as (_ & Fc & HD & _ & HS). split; auto.
  set (S := rsum (n - 2) (fun k => Rabs (val c.[k]))) in *. assert (S0 : 0 <= S) by (apply rsum_pos; intros; apply Rabs_pos).
  pose proof (rn_u _ _ _ RN) as [U U1]. pose proof (rn_eta _ _ _ RN) as H0. set (ne := INR n * eta) in *.
  assert (N5 : 5 <= INR n). { apply le_INR in Hn. replace (INR 5) with 5 in Hn by (cbn; ring). auto. }
  assert (ne5 : 5 * eta <= ne) by (apply Rmult_le_compat_r; auto).
  assert (dS : 0 <= dl * S) by (apply Rmult_le_pos; lra). assert (uS : 0 <= u * S) by (apply Rmult_le_pos; lra).
  assert (udS : u * (dl * S) <= / 64 * (dl * S)) by (apply Rmult_le_compat_r; auto). assert (uuS : u * (u * S) <= / 64 * (u * S)) by (apply Rmult_le_compat_r; auto).
  set (D := (29 * dl + 45 * u) * S + 13 * ne + 6 * zt). assert (D0 : 0 <= D) by (unfold D; lra).
  assert (ND : forall j, (j < n)%nat -> Rabs (val d.[j] - dir_coef n (V_ c) j) <= D).
  { intros j Hj. replace (val d.[j] - dir_coef n (V_ c) j) with ((val d.[j] - val a.[j]) + (val a.[j] - dir_coef n (V_ c) j)) by ring.
    eapply Rle_trans; [apply Rabs_triang|]. pose proof (HF j Hj) as F1. pose proof (HD j Hj) as F2.
    assert ((14 * dl + 21 * u) * rsum n (fun k => Rabs (val a.[k])) <= (14 * dl + 21 * u) * (2 * S + 2 * u * S)) by (apply Rmult_le_compat_l; lra).
    replace (13 * INR n * eta) with (13 * ne) in F1 by (unfold ne; ring). unfold D. lra. }
  assert (HG : forall j, Rabs (val c.[j]) <= S).
  { intros j. destruct (lt_dec j (n - 2)) as [Hl|Hl]. apply (rsum_elem (n - 2) (fun k => Rabs (val c.[k]))); auto. intros; apply Rabs_pos.
    rewrite at_over by lia. change (Rabs (val n0) <= S). rewrite (proj2 (fa_0 _ _ _ _ _ _ _ _ FA)), Rabs_R0. auto. }
  intros k Hk. eapply Rle_trans. { exact (dir_from_near FA (VC := vecC_self N) n d o2 x tt (V_ c) _ S (2 * S) D Hn Hsm Ld L2 Ex (fun _ => Fx) D0 HG (fun j _ => dir_coef_le n (V_ c) S j S0 HG) (dir_coef_rows n (V_ c)) ND k Hk). }
  apply Rmult_le_compat_l. apply pow_le. lra. assert (5 * eta * S <= u * S) by (apply Rmult_le_compat_r; lra).
  replace (3 * INR n * eta) with (3 * ne) by (unfold ne; ring). unfold D. lra.
Qed.
Lemma neu_fwd_bwd_err n dl zt (c o1 y o2 x : list A) : (5 <= n)%nat -> (Z.of_nat n * Z.of_nat n <= zmax)%Z -> INR n * eta <= u -> 10 * (INR n ^ 2 * (u + eta)) <= 1 ->
  0 <= dl <= / 16 -> 0 <= zt -> dct1_accurate E fin val n dl zt ->
  length c = (n - 2)%nat -> length o1 = n -> length o2 = (n - 2)%nat ->
  compo_backward_x E (neuc n) c o1 = Ok y -> compo_forward_x E (neuc n) y o2 = Ok x -> (forall k, (k < n - 2)%nat -> fin x.[k]) ->
  (forall k, (k < n - 2)%nat -> fin c.[k]) /\
  forall k, (k < n - 2)%nat -> Rabs (val x.[k] - val c.[k]) <=
    INR n ^ 2 * ((15 * dl + 41 * u) * rsum (n - 2) (fun k => Rabs (val c.[k])) + 11 * INR n * eta + 3 * zt).
Proof.
  intros Hn Hz Hs Hsm Hd Hzt HE Lc L1 L2 Ey Ex Fx.
  assert (Hz1 : (Z.of_nat n <= zmax)%Z) by nia.
  unfold compo_backward_x, compo_len_orth in Ey. cbn [p_ortho cheb_len_orth] in Ey. unfold compo_forward_x, compo_len_orth in Ex. cbn [p_ortho cheb_len_orth] in Ex.
  set (s0 := repeat n0 _) in Ey, Ex. assert (L0 : length s0 = n) by (unfold s0; rewrite repeat_length; reflexivity).
  destruct (compo_to_ortho (neuc n) c s0) as [a| |] eqn:Ea; cbn [bind] in Ey; try discriminate.
  destruct (cheb_forward_x E (mk_cheb n n) y s0) as [d| |] eqn:Ed; cbn [bind] in Ex; try discriminate.
  assert (La : length a = n). { pose proof (neu_to_ortho n c s0 ltac:(lia) Lc L0) as W. rewrite Ea in W. apply W. }
  assert (Ly : length y = n). { pose proof (cheb_backward_x_steps E n a o1 ltac:(lia) La L1) as W. rewrite Ey in W. destruct W as (b & Lb & -> & _). apply (HE b Lb). }
  assert (Ld : length d = n). { assert (LI : length (fwd_in n y) = n) by (unfold fwd_in; rewrite map_length, rev_length; auto).
    pose proof (cheb_forward_x_steps E n y s0 ltac:(lia) Ly L0 (proj1 (HE _ LI))) as W. rewrite Ed in W. apply W. }
  assert (Hs1 : INR n * INR n * (u + eta) <= 1). { pose proof (rn_u _ _ _ RN) as [U _]. pose proof (rn_eta _ _ _ RN). assert (0 <= INR n ^ 2 * (u + eta)) by (apply Rmult_le_pos; [apply pow_le, pos_INR|lra]). replace (INR n * INR n) with (INR n ^ 2) by ring. lra. }
  destruct (neu_from_rows FA (VC := vecC_self N) n d o2 x Hn Hz Hs1 Ld L2 Ex (fun _ => Fx)) as [_ HR]. destruct (HR tt) as [Fd _]. clear HR. cbn [cp vecC_self] in Fd.
  destruct (cheb_fwd_bwd_err FA E n dl zt a o1 y s0 d ltac:(lia) Hz1 Hs Hd Hzt HE La L1 L0 Ey Ed Fd) as [Fa HF].
  destruct (neu_scratch n c s0 a ltac:(lia) Hz Hs Lc L0 Ea Fa) as (_ & Fc & HD & _ & HS). split; auto.
  set (S := rsum (n - 2) (fun k => Rabs (val c.[k]))) in *. assert (S0 : 0 <= S) by (apply rsum_pos; intros; apply Rabs_pos).
  pose proof (rn_u _ _ _ RN) as [U U1]. pose proof (rn_eta _ _ _ RN) as H0. set (ne := INR n * eta) in *.
  assert (N5 : 5 <= INR n). { apply le_INR in Hn. replace (INR 5) with 5 in Hn by (cbn; ring). auto. }
  assert (ne5 : 5 * eta <= ne) by (apply Rmult_le_compat_r; auto).
  assert (dS : 0 <= dl * S) by (apply Rmult_le_pos; lra). assert (uS : 0 <= u * S) by (apply Rmult_le_pos; lra).
  assert (udS : u * (dl * S) <= / 64 * (dl * S)) by (apply Rmult_le_compat_r; auto). assert (uuS : u * (u * S) <= / 64 * (u * S)) by (apply Rmult_le_compat_r; auto).
  assert (dne : dl * ne <= / 16 * ne) by (apply Rmult_le_compat_r; lra). assert (une : u * ne <= / 64 * ne) by (apply Rmult_le_compat_r; lra).
  replace (2 * INR n * eta) with (2 * ne) in * by (unfold ne; ring).
  set (D := (30 * dl + 51 * u) * S + 19 * ne + 6 * zt). assert (D0 : 0 <= D) by (unfold D; lra).
  assert (ND : forall j, (j < n)%nat -> Rabs (val d.[j] - neu_coef n (V_ c) j) <= D).
  { intros j Hj. replace (val d.[j] - neu_coef n (V_ c) j) with ((val d.[j] - val a.[j]) + (val a.[j] - neu_coef n (V_ c) j)) by ring.
    eapply Rle_trans; [apply Rabs_triang|]. pose proof (HF j Hj) as F1. pose proof (HD j Hj) as F2.
    assert ((14 * dl + 21 * u) * rsum n (fun k => Rabs (val a.[k])) <= (14 * dl + 21 * u) * (2 * S + 6 * u * S + 2 * ne)) by (apply Rmult_le_compat_l; lra).
    replace (13 * INR n * eta) with (13 * ne) in F1 by (unfold ne; ring). unfold D. lra. }
  assert (HG : forall j, Rabs (val c.[j]) <= S).
  { intros j. destruct (lt_dec j (n - 2)) as [Hl|Hl]. apply (rsum_elem (n - 2) (fun k => Rabs (val c.[k]))); auto. intros; apply Rabs_pos.
    rewrite at_over by lia. change (Rabs (val n0) <= S). rewrite (proj2 (fa_0 _ _ _ _ _ _ _ _ FA)), Rabs_R0. auto. }
  intros k Hk. eapply Rle_trans. { exact (neu_from_near FA (VC := vecC_self N) n d o2 x tt (V_ c) _ S (2 * S) D Hn Hz Hsm Ld L2 Ex (fun _ => Fx) D0 HG (fun j _ => neu_coef_le n (V_ c) S j S0 HG) (neu_coef_rows n (V_ c)) ND k Hk). }
  apply Rmult_le_compat_l. apply pow_le. lra. assert (5 * eta * S <= u * S) by (apply Rmult_le_compat_r; lra).
  replace (11 * INR n * eta) with (11 * ne) by (unfold ne; ring). unfold D. lra.
Qed.

(** ** forward, against the same program run exactly with the exact DCT *)
Notation XR := (X (A := R) (N := num_R) (T := R) (V := vec_self) (VC := vecC_self num_R) (val := fun r : R => r) tt).
Lemma exact_forward n (x : list A) (o' : list R) (c : compo R) y : (2 <= n)%nat -> length x = n ->
  compo_forward (N := num_R) c (map val x) o' = Ok y -> p_ortho c = mk_cheb n n -> compo_len_orth c = n ->
  exists a', length a' = n /\ (forall k, (k < n)%nat -> XR a' k = Fex n (V_ x) k) /\ compo_from_ortho (V := vec_self) c a' o' = Ok y.
Proof.
  intros Hn Lx E1 HO HL. unfold compo_forward in E1. rewrite HO, HL in E1.
  assert (Lm : length (map val x) = n) by (rewrite map_length; auto). assert (Lr : length (repeat 0 n) = n) by apply repeat_length.
  pose proof (cheb_forward_ok n (map val x) (repeat 0 n) Hn Lm Lr) as W. change (@n0 R num_R) with 0 in E1.
  destruct (cheb_forward (mk_cheb n n) (map val x) (repeat 0 n)) as [a'| |]; cbn [bind wp] in *; try tauto; try discriminate.
  destruct W as [La Ea]. exists a'. split; auto. split; auto. intros k Hk. unfold X. cbn [cp vecC_self]. etransitivity; [exact (Ea k Hk)|]. unfold Fex. f_equal.
  apply rsum_ext. intros j Hj. f_equal. rewrite (at_map val) by lia. auto.
Qed.
Lemma XR_at (y : list R) k : XR y k = y.[k].
Proof. reflexivity. Qed.
Lemma XR_le m (y : list R) Cm : length y = m -> 0 <= Cm -> (forall k, (k < m)%nat -> Rabs y.[k] <= Cm) -> forall j, Rabs (XR y j) <= Cm.
Proof.
  intros L C0 H j. destruct (lt_dec j m) as [Hl|Hl]. exact (H j Hl). unfold X. cbn [cp vecC_self]. rewrite at_over by lia. change (Rabs 0 <= Cm). rewrite Rabs_R0. auto.
Qed.
Lemma dir_forward_err n dl zt (x o c : list A) (o' y : list R) cx : (5 <= n)%nat -> (Z.of_nat n <= zmax)%Z -> INR n * eta <= u -> 3 * (INR n + 1) ^ 2 * (u + eta) <= 1 ->
  0 <= dl <= 1 -> 0 <= zt -> dct1_accurate E fin val n dl zt ->
  length x = n -> length o = (n - 2)%nat -> length o' = (n - 2)%nat ->
  compo_forward_x E (dirc n) x o = Ok c -> (forall k, (k < n - 2)%nat -> fin c.[k]) ->
  compo_new (N := num_R) KDirichlet n = Ok cx -> compo_forward (N := num_R) cx (map val x) o' = Ok y ->
  (forall k, (k < n)%nat -> fin x.[k]) /\
  forall Cm, (forall k, (k < n - 2)%nat -> Rabs y.[k] <= Cm) ->
  forall k, (k < n - 2)%nat -> Rabs (val c.[k] - y.[k]) <=
    (INR n + 1) ^ 2 * ((dl / 5 + u) * (2 / INR (n - 1) * rsum n (fun k => Rabs (val x.[k]))) + 4 * u * Cm + INR n * eta + zt / 7).
Proof.
  intros Hn Hz Hs Hsm Hd Hzt HE Lx Lo Lo' Ec Fc Hcx Ey. destruct (dir_inv (N := num_R) n cx Hcx) as [_ ->].
  destruct (exact_forward n x o' _ y (Nat.le_trans 2 5 n ltac:(lia) Hn) Lx Ey eq_refl eq_refl) as (a' & La' & Ea' & Ey').
  unfold compo_forward_x, compo_len_orth in Ec. cbn [p_ortho cheb_len_orth] in Ec.
  set (s0 := repeat n0 _) in Ec. assert (L0 : length s0 = n) by (unfold s0; rewrite repeat_length; reflexivity).
  destruct (cheb_forward_x E (mk_cheb n n) x s0) as [d| |] eqn:Ed; cbn [bind] in Ec; try discriminate.
  assert (Ld : length d = n). { assert (LI : length (fwd_in n x) = n) by (unfold fwd_in; rewrite map_length, rev_length; auto).
    pose proof (cheb_forward_x_steps E n x s0 ltac:(lia) Lx L0 (proj1 (HE _ LI))) as W. rewrite Ed in W. apply W. }
  destruct (dir_from_rows FA (VC := vecC_self N) n d o c Hn Ld Lo Ec (fun _ => Fc)) as [_ HR]. destruct (HR tt) as [Fd _]. clear HR. cbn [cp vecC_self] in Fd.
  destruct (cheb_forward_err FA E n dl zt x s0 d ltac:(lia) Hz Hs Hd Hzt HE Lx L0 Ed Fd) as (_ & Fx & HF). split; auto. intros Cm HC.
  destruct (dir_from_rows (exact_float_arith 1024 ltac:(lia)) n a' o' y Hn La' Lo' Ey' (fun _ _ _ => I)) as [Ly HY].
  destruct (HY tt) as [_ HY']. clear HY. destruct (bounded_max (n - 2) (XR y)) as (Ym & _ & HYm & _). specialize (HY' Ym HYm).
  assert (Cm0 : 0 <= Cm). { specialize (HC 0%nat ltac:(lia)). pose proof (Rabs_pos (y.[0])). lra. }
  pose proof (rn_u _ _ _ RN) as [U U1]. pose proof (rn_eta _ _ _ RN) as H0. set (ne := INR n * eta) in *.
  assert (N5 : 5 <= INR n). { apply le_INR in Hn. replace (INR 5) with 5 in Hn by (cbn; ring). auto. }
  assert (ne5 : 5 * eta <= ne) by (apply Rmult_le_compat_r; auto).
  set (S := rsum n (fun k => Rabs (val x.[k]))) in *. assert (S0 : 0 <= S) by (apply rsum_pos; intros; apply Rabs_pos).
  pose proof (cor_pos n ltac:(lia)) as CP. set (P := 2 / INR (n - 1) * S) in *. assert (P0 : 0 <= P) by (apply Rmult_le_pos; lra).
  assert (dP : 0 <= dl * P) by (apply Rmult_le_pos; lra). assert (uP : 0 <= u * P) by (apply Rmult_le_pos; lra).
  set (D := (11 / 10 * dl + 4 * u) * P + 3 * ne + zt). assert (D0 : 0 <= D) by (unfold D; lra).
  assert (ND : forall j, (j < n)%nat -> Rabs (X (VC := vecC_self N) (val := val) tt d j - XR a' j) <= D).
  { intros j Hj. rewrite Ea' by auto. eapply Rle_trans. exact (HF j Hj). unfold fwd_err. fold S P. unfold D, ne. lra. }
  assert (HGm : forall j, (j < n)%nat -> Rabs (XR a' j) <= P). { intros j Hj. rewrite Ea' by auto. apply (Fex_abs n (V_ x)). lia. }
  assert (HR : forall j, (j < n - 2)%nat -> XR a' j - XR a' (j + 2)%nat = 2 * XR y j - zprev (XR y) j - znext (n - 2) (XR y) j).
  { intros j Hj. destruct (HY' j Hj) as (b' & B3 & B4). rewrite Rmult_0_l in B3. replace (48 * 0 * Ym + 24 * 0 * (1 + 2 * Ym)) with 0 in B4 by ring.
    assert (B5 : b' = XR a' j - XR a' (j + 2)%nat) by (apply Rminus_diag_uniq, Rabs_le0; exact B3).
    rewrite <- B5. symmetry. apply Rminus_diag_uniq, Rabs_le0. exact B4. }
  intros k Hk. eapply Rle_trans. { exact (dir_from_near FA (VC := vecC_self N) n d o c tt (XR y) (XR a') Cm P D Hn Hsm Ld Lo Ec (fun _ => Fc) D0 (XR_le _ y Cm Ly Cm0 HC) HGm HR ND k Hk). }
  apply Rmult_le_compat_l. apply pow_le. lra. assert (5 * eta * Cm <= u * Cm) by (apply Rmult_le_compat_r; lra).
  assert (0 <= u * Cm) by (apply Rmult_le_pos; auto). unfold D. lra.
Qed.
Lemma neu_forward_err n dl zt (x o c : list A) (o' y : list R) cx : (5 <= n)%nat -> (Z.of_nat n * Z.of_nat n <= zmax)%Z -> INR n * eta <= u -> 10 * (INR n ^ 2 * (u + eta)) <= 1 ->
  0 <= dl <= 1 -> 0 <= zt -> dct1_accurate E fin val n dl zt ->
  length x = n -> length o = (n - 2)%nat -> length o' = (n - 2)%nat ->
  compo_forward_x E (neuc n) x o = Ok c -> (forall k, (k < n - 2)%nat -> fin c.[k]) ->
  compo_new (N := num_R) KNeumann n = Ok cx -> compo_forward (N := num_R) cx (map val x) o' = Ok y ->
  (forall k, (k < n)%nat -> fin x.[k]) /\
  forall Cm, (forall k, (k < n - 2)%nat -> Rabs y.[k] <= Cm) ->
  forall k, (k < n - 2)%nat -> Rabs (val c.[k] - y.[k]) <=
    INR n ^ 2 * ((dl + 4 * u) * (2 / INR (n - 1) * rsum n (fun k => Rabs (val x.[k]))) + 12 * u * Cm + 3 * INR n * eta + zt).
Proof.
  intros Hn Hz Hs Hsm Hd Hzt HE Lx Lo Lo' Ec Fc Hcx Ey. destruct (neu_inv (N := num_R) n cx Hcx) as [_ ->].
  assert (Hz1 : (Z.of_nat n <= zmax)%Z) by nia.
  destruct (exact_forward n x o' _ y (Nat.le_trans 2 5 n ltac:(lia) Hn) Lx Ey eq_refl eq_refl) as (a' & La' & Ea' & Ey').
  unfold compo_forward_x, compo_len_orth in Ec. cbn [p_ortho cheb_len_orth] in Ec.
  set (s0 := repeat n0 _) in Ec. assert (L0 : length s0 = n) by (unfold s0; rewrite repeat_length; reflexivity).
  destruct (cheb_forward_x E (mk_cheb n n) x s0) as [d| |] eqn:Ed; cbn [bind] in Ec; try discriminate.
  assert (Ld : length d = n). { assert (LI : length (fwd_in n x) = n) by (unfold fwd_in; rewrite map_length, rev_length; auto).
    pose proof (cheb_forward_x_steps E n x s0 ltac:(lia) Lx L0 (proj1 (HE _ LI))) as W. rewrite Ed in W. apply W. }
  pose proof (rn_u _ _ _ RN) as [U U1]. pose proof (rn_eta _ _ _ RN) as H0.
  assert (Hs1 : INR n * INR n * (u + eta) <= 1). { assert (0 <= INR n ^ 2 * (u + eta)) by (apply Rmult_le_pos; [apply pow_le, pos_INR|lra]). replace (INR n * INR n) with (INR n ^ 2) by ring. lra. }
  destruct (neu_from_rows FA (VC := vecC_self N) n d o c Hn Hz Hs1 Ld Lo Ec (fun _ => Fc)) as [_ HR]. destruct (HR tt) as [Fd _]. clear HR. cbn [cp vecC_self] in Fd.
  destruct (cheb_forward_err FA E n dl zt x s0 d ltac:(lia) Hz1 Hs Hd Hzt HE Lx L0 Ed Fd) as (_ & Fx & HF). split; auto. intros Cm HC.
  destruct (neu_from_rows (exact_float_arith (Z.max 1024 (Z.of_nat n * Z.of_nat n)) ltac:(lia)) n a' o' y Hn ltac:(lia) ltac:(lra) La' Lo' Ey' (fun _ _ _ => I)) as [Ly HY].
  destruct (HY tt) as [_ HY']. clear HY. destruct (bounded_max (n - 2) (XR y)) as (Ym & _ & HYm & _). destruct (bounded_max n (XR a')) as (Am' & _ & HAm & _). specialize (HY' Am' Ym HAm HYm).
  assert (Cm0 : 0 <= Cm). { specialize (HC 0%nat ltac:(lia)). pose proof (Rabs_pos (y.[0])). lra. }
  set (ne := INR n * eta) in *.
  assert (N5 : 5 <= INR n). { apply le_INR in Hn. replace (INR 5) with 5 in Hn by (cbn; ring). auto. }
  assert (ne5 : 5 * eta <= ne) by (apply Rmult_le_compat_r; auto).
  set (S := rsum n (fun k => Rabs (val x.[k]))) in *. assert (S0 : 0 <= S) by (apply rsum_pos; intros; apply Rabs_pos).
  pose proof (cor_pos n ltac:(lia)) as CP. set (P := 2 / INR (n - 1) * S) in *. assert (P0 : 0 <= P) by (apply Rmult_le_pos; lra).
  assert (dP : 0 <= dl * P) by (apply Rmult_le_pos; lra). assert (uP : 0 <= u * P) by (apply Rmult_le_pos; lra).
  set (D := (11 / 10 * dl + 4 * u) * P + 3 * ne + zt). assert (D0 : 0 <= D) by (unfold D; lra).
  assert (ND : forall j, (j < n)%nat -> Rabs (X (VC := vecC_self N) (val := val) tt d j - XR a' j) <= D).
  { intros j Hj. rewrite Ea' by auto. eapply Rle_trans. exact (HF j Hj). unfold fwd_err. fold S P. unfold D, ne. lra. }
  assert (HGm : forall j, (j < n)%nat -> Rabs (XR a' j) <= P). { intros j Hj. rewrite Ea' by auto. apply (Fex_abs n (V_ x)). lia. }
  assert (HR : forall j, (j < n - 2)%nat -> XR a' j - nq j * XR a' (j + 2)%nat = neu_row (n - 2) (XR y) j).
  { intros j Hj. specialize (HY' j Hj). rewrite !Rmult_0_l, Rplus_0_r in HY'. apply Rabs_le0, Rminus_diag_uniq in HY'. symmetry. exact HY'. }
  intros k Hk. eapply Rle_trans. { exact (neu_from_near FA (VC := vecC_self N) n d o c tt (XR y) (XR a') Cm P D Hn Hz Hsm Ld Lo Ec (fun _ => Fc) D0 (XR_le _ y Cm Ly Cm0 HC) HGm HR ND k Hk). }
  apply Rmult_le_compat_l. apply pow_le. lra. assert (5 * eta * Cm <= u * Cm) by (apply Rmult_le_compat_r; lra). assert (5 * eta * P <= u * P) by (apply Rmult_le_compat_r; lra).
  assert (0 <= u * Cm) by (apply Rmult_le_pos; auto). replace (3 * INR n * eta) with (3 * ne) by (unfold ne; ring). unfold D. lra.
Qed.
End Compo.
