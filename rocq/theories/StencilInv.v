(** [stencil_inv] of the Dirichlet and Neumann bases: its entries in any
    arithmetic, and how far they are from the exact ones in floating point. *)
From Coq Require Import List Arith Lia Bool ZArith Reals Lra.
From Verif Require Import Base Num Stencils StencilProofs StencilProofs2 Compo Rounding RndTdma RndDirichlet RndNeumann.
Import ListNotations.
Local Open Scope R_scope.

Section Gen.
Context {A : Type} {N : Num A}.
(** entry (i, i - 2t) *)
Fixpoint pe (d b : list A) (i t : nat) : A :=
  match t with
  | O => ndiv n1 d.[i]
  | S t => ndiv (nmul (nopp n1) (nmul (pe d b i t) b.[i - 2 - 2 * t])) d.[i - 2 - 2 * t]
  end.

Lemma wp_mset_gen (M : list (list A)) r c i j (e : res A) (Q : list (list A) -> Prop) :
  mat_dims M r c -> (i < r)%nat -> (j < c)%nat ->
  wp e (fun x => forall M', mat_dims M' r c -> M'.[i].[j] = x ->
     (forall i' j', i' <> i \/ j' <> j -> M'.[i'].[j'] = M.[i'].[j']) -> Q M') ->
  wp (mset M i j e) Q.
Proof.
  intros HD Hi Hj H. unfold mset. apply wp_bind. eapply wp_mono; eauto.
  intros x Hx. cbv beta. eapply wp_mwr; eauto.
Qed.

(** row r is done *)
Definition done (d b : list A) (P : list (list A)) (r : nat) : Prop :=
  (forall t, (2 * t <= r)%nat -> P.[r].[r - 2 * t] = pe d b r t) /\
  (forall t, (2 * t + 1 <= r)%nat -> P.[r].[r - 1 - 2 * t] = n0) /\
  (forall j, (r < j)%nat -> P.[r].[j] = n0).

Lemma st2_pinv_entries (h : st2 A) m : length (d2_diag h) = m -> length (d2_low2 h) = m ->
  wp (st2_pinv h) (fun P => mat_dims P m (m + 2) /\ forall r, (r < m)%nat -> done (d2_diag h) (d2_low2 h) P r).
Proof.
  intros Ld Ll. unfold st2_pinv. rewrite Ld. set (d := d2_diag h) in *. set (b := d2_low2 h) in *.
  apply (wp_for_each_range 0 m _ (fun i M => mat_dims M m (m + 2) /\ (forall r, (r < i)%nat -> done d b M r) /\ (forall r j, (i <= r)%nat -> M.[r].[j] = n0))).
  - lia.
  - split; [apply mzeros_dims|]. split; [intros; lia|]. intros; apply (mzeros_at (A := A)).
  - intros i M Hi (HD & HR & HZ).
    apply wp_bind. eapply wp_mset_gen; eauto; try lia.
    apply wp_lift2. cbn [wp]. apply wp_rd; [lia|]. intros M1 D1 E1 F1.
    assert (Z1 : forall j, j <> i -> M1.[i].[j] = n0). { intros. rewrite F1 by lia. apply HZ. lia. }
    set (RI := fun t M' => mat_dims M' m (m+2) /\
           (forall r j, r <> i -> M'.[r].[j] = M.[r].[j]) /\ (forall j, (i < j)%nat -> M'.[i].[j] = n0) /\
           (forall q, (2*q+1 <= i)%nat -> M'.[i].[i - 1 - 2*q] = n0) /\
           (forall q, (q <= t)%nat -> (2*q <= i)%nat -> M'.[i].[i - 2*q] = pe d b i q)).
    assert (R0 : RI 0%nat M1).
    { split; auto. split; [intros; apply F1; auto|]. split; [intros; apply Z1; lia|]. split; [intros; apply Z1; lia|].
      intros q Hq _. replace q with 0%nat by lia. replace (i - 2 * 0)%nat with i by lia. exact E1. }
    pose proof (Nat.div_mod_eq i 2) as DM. pose proof (mod2_cases i) as MC.
    assert (Fin' : forall M', RI (i/2)%nat M' -> mat_dims M' m (m + 2) /\ (forall r, (r < i + 1)%nat -> done d b M' r) /\ (forall r j, (i + 1 <= r)%nat -> M'.[r].[j] = n0)).
    { intros M' (D' & F' & Zg & Zo & Er). split; auto. split.
      - intros r Hr. destruct (Nat.eq_dec r i) as [->|Ne].
        + split; [|split; auto]. intros t Ht. apply Er; lia.
        + destruct (HR r ltac:(lia)) as (G1 & G2 & G3). split; [|split]; intros; rewrite F' by auto; auto.
      - intros r j Hr. rewrite F' by lia. apply HZ. lia. }
    destruct (Nat.leb_spec 2 i).
    2:{ cbn [wp]. apply Fin'. replace (i/2)%nat with 0%nat by lia. auto. }
    rewrite step_by2_rev, for_each_map. replace (i - 1 + 1)%nat with i by lia.
    apply (wp_for_each_range 0 (i/2) _ RI); auto; try lia.
    intros t M' Ht (D' & F' & Zg & Zo & Er).
    replace (i - 1 - 1 - 2*t)%nat with (i - 2 - 2*t)%nat by lia.
    eapply wp_mset_gen; eauto; try lia.
    unfold negdiv; apply wp_lift2, wp_lift2; cbn [wp]; apply wp_lift2.
    eapply wp_mrd; eauto; try lia. apply wp_rd; [lia|]. apply wp_rd; [lia|].
    intros M2 D2 E2 F2. split; auto.
    split; [intros; rewrite F2 by lia; auto|].
    split; [intros; rewrite F2 by lia; auto|]. split; [intros q Hq; rewrite F2 by lia; auto|].
    intros q Hq Hq'. destruct (Nat.eq_dec q (t + 1)) as [->|].
    + replace (i - 2 * (t + 1))%nat with (i - 2 - 2 * t)%nat by lia. rewrite E2. replace (i - 2 - 2*t + 2)%nat with (i - 2*t)%nat by lia.
      rewrite Er by lia. replace (t + 1)%nat with (S t) by lia. reflexivity.
    + rewrite F2 by lia. apply Er; lia.
  - intros P (HD & HR & _). split; auto.
Qed.
End Gen.

(** ** Floating point *)
Section Fl.
Context {A : Type} {N : Num A} {u eta : R} {rnd : R -> R} {zmax : Z} {inr : R -> Prop} {fin : A -> Prop} {val : A -> R}
  (FA : float_arith N u eta rnd zmax inr fin val).
Let RN := fa_rnd _ _ _ _ _ _ _ _ FA.
Let FF := fa_float _ _ _ _ _ _ _ _ FA.

Lemma rnd_0 : rnd 0 = 0.
Proof. destruct (fa_0 _ _ _ _ _ _ _ _ FA) as [F V]. rewrite <- V. apply FF; auto. Qed.

(** [-1 * x / 1] is exact *)
Lemma negdiv_one x : fin x -> Rabs (val x) <= 8 -> fin (ndiv (nmul (nopp n1) x) n1) /\ val (ndiv (nmul (nopp n1) x) n1) = - val x.
Proof.
  intros F B. destruct (fin_m1 FA) as [Fm Em]. destruct (fa_1 _ _ _ _ _ _ _ _ FA) as [F1 V1].
  assert (R : rnd (-1 * val x) = - val x). { replace (-1 * val x) with (- val x) by ring. rewrite (rn_opp _ _ _ RN), FF; auto. }
  assert (F2 : fin (nmul (nopp n1) x)). { apply (fa_mulF _ _ _ _ _ _ _ _ FA); auto. rewrite Em, R. apply (inr_small FA). rewrite Rabs_Ropp. auto. }
  destruct (fa_mul _ _ _ _ _ _ _ _ FA _ _ F2) as (_ & _ & V2). rewrite Em, R in V2.
  assert (R' : rnd (val (nmul (nopp n1) x) / val n1) = - val x). { rewrite V1. unfold Rdiv. rewrite Rinv_1, Rmult_1_r. rewrite FF; auto. }
  assert (F3 : fin (ndiv (nmul (nopp n1) x) n1)).
  { apply (fa_divF _ _ _ _ _ _ _ _ FA); auto. rewrite V1; lra. rewrite R'. apply (inr_small FA). rewrite Rabs_Ropp. auto. }
  split; auto. destruct (fa_div _ _ _ _ _ _ _ _ FA _ _ F3 F1 ltac:(rewrite V1; lra)) as [_ V3]. rewrite V3. exact R'.
Qed.
Lemma one_div : fin (ndiv n1 n1) /\ val (ndiv n1 n1) = 1.
Proof.
  destruct (fa_1 _ _ _ _ _ _ _ _ FA) as [F1 V1].
  assert (R' : rnd (val n1 / val n1) = 1). { rewrite V1. unfold Rdiv. rewrite Rinv_1, Rmult_1_r. rewrite <- V1. apply FF; auto. }
  assert (F3 : fin (ndiv n1 n1)).
  { apply (fa_divF _ _ _ _ _ _ _ _ FA); auto. rewrite V1; lra. rewrite R'. apply (inr_small FA). rewrite Rabs_R1. lra. }
  split; auto. destruct (fa_div _ _ _ _ _ _ _ _ FA _ _ F3 F1 ltac:(rewrite V1; lra)) as [_ V3]. rewrite V3. exact R'.
Qed.

(** Dirichlet: every entry is exactly 1 *)
Lemma pe_dirichlet m i t : (i < m)%nat -> (2 * t <= i)%nat ->
  fin (pe (repeat n1 m) (repeat (nopp n1) m) i t) /\ val (pe (repeat n1 m) (repeat (nopp n1) m) i t) = 1.
Proof.
  intros Hi. induction t; intros Ht; cbn [pe].
  - rewrite at_repeat by lia. apply one_div.
  - rewrite !at_repeat by lia. destruct IHt as [F V]. lia. destruct (fin_m1 FA) as [Fm Em].
    destruct (unit_mul FA (pe (repeat n1 m) (repeat (nopp n1) m) i t) (nopp n1)) as [F2 V2]; auto. rewrite V, Em in V2.
    destruct (negdiv_one _ F2) as [F3 V3]. rewrite V2. rewrite Rabs_left; lra. split; auto. rewrite V3, V2. ring.
Qed.

(** Neumann: the exact entry is (j/i)^2 *)
Fixpoint nx (i t : nat) : R := match t with O => 1 | S t => nx i t * nq (i - 2 - 2 * t) end.
Lemma nx_eq i t : (0 < i)%nat -> (2 * t <= i)%nat -> nx i t = (INR (i - 2 * t) / INR i) * (INR (i - 2 * t) / INR i).
Proof.
  intros Hi. assert (I : INR i <> 0) by (apply not_0_INR; lia). induction t; intros Ht; cbn [nx].
  - replace (i - 2 * 0)%nat with i by lia. field. auto.
  - rewrite IHt by lia. unfold nq. set (j := (i - 2 * S t)%nat). replace (i - 2 - 2 * t)%nat with j by (unfold j; lia).
    replace (i - 2 * t)%nat with (j + 2)%nat by (unfold j; lia). rewrite plus_INR. replace (INR 2) with 2 by (cbn; ring). pose proof (pos_INR j). field. lra.
Qed.
Lemma nx_range i t : 0 <= nx i t <= 1.
Proof. induction t; cbn [nx]. lra. pose proof (nq_range (i - 2 - 2 * t)). nra. Qed.

Lemma pow_ge1 (x : R) k : 0 <= x -> 1 <= (1 + x) ^ k.
Proof. intros. apply pow_R1_Rle. lra. Qed.

Lemma neumann_zero : fin (neumann_low2 0) /\ val (neumann_low2 0) = 0.
Proof.
  destruct (neu_low_fin FA 3 0) as (F & E & _). { pose proof (fa_zmax _ _ _ _ _ _ _ _ FA). lia. } lia. split; auto.
  unfold neumann_low2, nofN in *. destruct (fa_int _ _ _ _ _ _ _ _ FA (Z.of_nat ((0 + 2) * (0 + 2)))) as [F2 E2]. { pose proof (fa_zmax _ _ _ _ _ _ _ _ FA). change (4 <= zmax)%Z. lia. }
  destruct (fa_div _ _ _ _ _ _ _ _ FA _ _ F F2) as [F3 V3]. rewrite E2. cbn. lra. rewrite V3.
  destruct (fa_mul _ _ _ _ _ _ _ _ FA _ _ F3) as (_ & F4 & V4). rewrite V4.
  destruct (fa_int _ _ _ _ _ _ _ _ FA (Z.of_nat (0 * 0))) as [_ E0]. { pose proof (fa_zmax _ _ _ _ _ _ _ _ FA). change (0 <= zmax)%Z. lia. }
  rewrite E0. cbn [Nat.mul Z.of_nat]. rewrite Rmult_0_r, rnd_0. unfold Rdiv. rewrite Rmult_0_l. apply rnd_0.
Qed.

Lemma pe_neumann n i t v : (4 <= n)%nat -> (Z.of_nat n * Z.of_nat n <= zmax)%Z -> u + INR n * INR n * eta <= v -> (1 + v) ^ n <= 2 ->
  (i < n - 2)%nat -> (2 * t <= i)%nat ->
  fin (pe (repeat n1 (n - 2)) (neu_low (n - 2)) i t) /\
  Rabs (val (pe (repeat n1 (n - 2)) (neu_low (n - 2)) i t) - nx i t) <= ((1 + v) ^ (2 * t) - 1) * nx i t.
Proof.
  intros Hn Hz Hv H2 Hi. pose proof (rn_u _ _ _ RN) as U. pose proof (rn_eta _ _ _ RN) as ET.
  assert (Nn : 4 <= INR n) by (change 4 with (IZR 4); rewrite INR_IZR_INZ; apply IZR_le; lia).
  assert (V0 : 0 <= v) by nra.
  induction t; intros Ht.
  - cbn [pe]. rewrite at_repeat by lia. destruct one_div as [F V]. split; auto. rewrite V. change (2 * 0)%nat with 0%nat; cbn [nx pow]. rewrite Rminus_diag_eq, Rabs_R0 by auto. lra.
  - cbn [pe]. rewrite at_repeat by lia. rewrite neu_low_at by lia. destruct IHt as [F E]. lia.
    set (j := (i - 2 - 2 * t)%nat) in *. set (p := pe (repeat n1 (n - 2)) (neu_low (n - 2)) i t) in *.
    cbn [nx]. fold j. pose proof (nx_range i t) as X. set (x := nx i t) in *. pose proof (nq_range j) as Q.
    destruct (neu_low_fin FA n j Hz ltac:(lia)) as (Fl & El & Bl).
    set (W := (1 + v) ^ (2 * t)) in *. assert (W1 : 1 <= W) by (apply pow_ge1; auto).
    assert (Wt : (1 + v) ^ (2 * S t) = W * (1 + v) * (1 + v)).
    { replace (2 * S t)%nat with (2 * t + 2)%nat by lia. rewrite pow_add. unfold W. cbn [pow]. ring. }
    assert (W2 : W * (1 + v) * (1 + v) <= 2).
    { rewrite <- Wt. eapply Rle_trans. apply (Rle_pow (1 + v) (2 * S t) n). lra. lia. exact H2. }
    assert (P1 : Rabs (val p) <= W * x).
    { replace (val p) with ((val p - x) + x) by ring. eapply Rle_trans. apply Rabs_triang. rewrite (Rabs_pos_eq x) by lra. lra. }
    assert (Wx : W * x <= 2) by nra.
    assert (D : fin (nmul p (neumann_low2 j)) /\ Rabs (val (nmul p (neumann_low2 j)) + x * nq j) <= (W * (1 + v) * (1 + v) - 1) * (x * nq j)).
    { assert (Pl : Rabs (val p * val (neumann_low2 j)) <= 2).
      { rewrite Rabs_mult. apply Rle_trans with (2 * 1). apply Rmult_le_compat; auto using Rabs_pos. lra. lra. }
      assert (Fm : fin (nmul p (neumann_low2 j))).
      { apply (fa_mulF _ _ _ _ _ _ _ _ FA); auto. apply (inr_small FA).
        pose proof (rn_err _ _ _ RN (val p * val (neumann_low2 j))) as R.
        replace (rnd (val p * val (neumann_low2 j))) with ((rnd (val p * val (neumann_low2 j)) - val p * val (neumann_low2 j)) + val p * val (neumann_low2 j)) by ring.
        eapply Rle_trans. apply Rabs_triang. assert (eta <= 1).
        { assert (16 * eta <= INR n * INR n * eta) by (apply Rmult_le_compat_r; nra). assert (v <= 1) by nra. nra. } nra. }
      split; auto. destruct (fa_mul _ _ _ _ _ _ _ _ FA _ _ Fm) as (_ & _ & Vm). rewrite Vm.
      destruct (Nat.eq_dec j 0) as [J0|J0].
      - rewrite J0. destruct neumann_zero as [_ Z]. rewrite Z, Rmult_0_r, rnd_0. assert (Q0 : nq 0 = 0) by (unfold nq; cbn [INR]; field). rewrite Q0, Rmult_0_r, Rplus_0_l, Rmult_0_r, Rabs_R0. lra.
      - (* x * nq j = (j/i)^2 >= 1/n^2 *)
        assert (Xq : x * nq j = (INR j / INR i) * (INR j / INR i)).
        { replace (x * nq j) with (nx i (S t)) by reflexivity. rewrite nx_eq by lia. replace (i - 2 * S t)%nat with j by (unfold j; lia). reflexivity. }
        assert (J1 : 1 <= INR j) by (change 1 with (INR 1); apply le_INR; lia).
        assert (I1 : INR i <= INR n) by (apply le_INR; lia). assert (I0 : 0 < INR i) by (apply lt_0_INR; lia).
        assert (Ji : / INR n <= INR j / INR i).
        { unfold Rdiv. rewrite <- (Rmult_1_l (/ INR n)). apply Rmult_le_compat; try lra. apply Rlt_le, Rinv_0_lt_compat; lra. apply Rinv_le_contravar; lra. }
        assert (N0 : 0 < / INR n) by (apply Rinv_0_lt_compat; lra).
        assert (Lo : / INR n * / INR n <= x * nq j) by (rewrite Xq; apply Rmult_le_compat; lra).
        set (y := x * nq j) in *. set (w := u + INR n * INR n * eta) in *.
        assert (Eta : eta <= (v - u) * y).
        { apply Rle_trans with ((w - u) * y).
          - replace ((w - u) * y) with (INR n * INR n * eta * y) by (unfold w; ring).
            replace eta with (INR n * INR n * eta * (/ INR n * / INR n)) at 1 by (field; lra). apply Rmult_le_compat_l; auto. repeat apply Rmult_le_pos; lra.
          - apply Rmult_le_compat_r. nra. lra. }
        assert (Y1 : y <= nq j) by (unfold y; nra).
        set (l := val (neumann_low2 j)) in *. set (q := nq j) in *.
        assert (Lq : Rabs (l + q) <= v * q).
        { eapply Rle_trans. exact El. assert ((v - u) * y <= (v - u) * q). { apply Rmult_le_compat_l; auto. assert (0 <= w - u) by (unfold w; assert (0 <= INR n * INR n * eta) by (repeat apply Rmult_le_pos; lra); lra). lra. } lra. }
        assert (Pl' : Rabs (val p * l + y) <= (W * (1 + v) - 1) * y).
        { unfold y. replace (val p * l + x * q) with ((val p - x) * (l + q) + (x * (l + q) - (val p - x) * q)) by ring.
          eapply Rle_trans. apply Rabs_triang. eapply Rle_trans. apply Rplus_le_compat_l. unfold Rminus at 1. eapply Rle_trans. apply Rabs_triang. rewrite Rabs_Ropp. apply Rle_refl.
          rewrite !Rabs_mult. rewrite (Rabs_pos_eq x), (Rabs_pos_eq q) by lra.
          assert (Rabs (val p - x) * Rabs (l + q) <= ((W - 1) * x) * (v * q)) by (apply Rmult_le_compat; auto using Rabs_pos).
          assert (x * Rabs (l + q) <= x * (v * q)) by (apply Rmult_le_compat_l; lra).
          assert (Rabs (val p - x) * q <= ((W - 1) * x) * q) by (apply Rmult_le_compat_r; lra).
          replace ((W * (1 + v) - 1) * (x * q)) with (((W - 1) * x) * (v * q) + (x * (v * q) + ((W - 1) * x) * q)) by ring. lra. }
        assert (Y0 : 0 < y) by nra.
        assert (Pa : Rabs (val p * l) <= W * (1 + v) * y).
        { replace (val p * l) with ((val p * l + y) - y) by ring. unfold Rminus at 1. eapply Rle_trans. apply Rabs_triang. rewrite Rabs_Ropp, (Rabs_pos_eq y) by lra. lra. }
        pose proof (rn_err _ _ _ RN (val p * l)) as R.
        replace (rnd (val p * l) + y) with ((rnd (val p * l) - val p * l) + (val p * l + y)) by ring. eapply Rle_trans. apply Rabs_triang.
        assert (u * Rabs (val p * l) <= u * (W * (1 + v) * y)) by (apply Rmult_le_compat_l; lra).
        assert ((v - u) * y <= (v - u) * (W * (1 + v) * y)).
        { assert (0 <= v - u) by nra. apply Rmult_le_compat_l; auto. assert (1 <= W * (1 + v)) by nra. nra. }
        replace ((W * (1 + v) * (1 + v) - 1) * y) with (u * (W * (1 + v) * y) + (v - u) * (W * (1 + v) * y) + (W * (1 + v) - 1) * y) by ring. lra. }
    destruct D as [Fm Dm]. set (r := nmul p (neumann_low2 j)) in *.
    assert (Xq0 : 0 <= x * nq j <= 1) by nra.
    destruct (negdiv_one r Fm) as [F3 V3].
    { replace (val r) with ((val r + x * nq j) - x * nq j) by ring. unfold Rminus at 1. eapply Rle_trans. apply Rabs_triang. rewrite Rabs_Ropp, (Rabs_pos_eq (x * nq j)) by lra.
      assert ((W * (1 + v) * (1 + v) - 1) * (x * nq j) <= 1 * 1) by (apply Rmult_le_compat; try lra; nra). lra. }
    split; auto. rewrite V3, Wt. replace (- val r - x * nq j) with (- (val r + x * nq j)) by ring. rewrite Rabs_Ropp. exact Dm.
Qed.
End Fl.
