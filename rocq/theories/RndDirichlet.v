(** Rounding errors of the Dirichlet base: to_ortho, from_ortho and the round
    trip, in any floating-point arithmetic (C54). *)
From Coq Require Import List Arith ZArith Reals Bool Lra Lia.
From Flocq Require Import Raux.
From Verif Require Import Base Num Linalg Stencils StencilProofs Cheb Compo CompoProofs AnyArith ArithSteps Rounding RndTdma.
Import ListNotations.
Local Open Scope R_scope.

(** ** The maximum principle for the matrix 2 on the diagonal, -1 at offsets -2 and +2 *)
Lemma concave_down (N : nat) (Y : nat -> R) i :
  (forall j, (2 <= j < N)%nat -> Y (j - 2)%nat + Y (j + 2)%nat <= 2 * Y j) ->
  (forall j, (N <= j < N + 2)%nat -> 0 <= Y j) ->
  (2 <= i < N + 2)%nat -> Y i < 0 -> Y i - Y (i - 2)%nat < 0 -> False.
Proof.
  intros HC HE. remember (N + 2 - i)%nat as k eqn:Ek. revert i Ek. induction k as [k IH] using lt_wf_ind. intros i Ek Hi H1 H2.
  destruct (le_lt_dec N i). { specialize (HE i ltac:(lia)). lra. }
  specialize (HC i ltac:(lia)). apply (IH (N + 2 - (i + 2))%nat ltac:(lia) (i + 2)%nat); try lia; try lra.
  replace (i + 2 - 2)%nat with i by lia. lra.
Qed.
Lemma concave_pos (N : nat) (Y : nat -> R) :
  (forall j, (2 <= j < N)%nat -> Y (j - 2)%nat + Y (j + 2)%nat <= 2 * Y j) ->
  (forall j, (j < 2)%nat -> 0 <= Y j) -> (forall j, (N <= j < N + 2)%nat -> 0 <= Y j) ->
  forall i, (i < N + 2)%nat -> 0 <= Y i.
Proof.
  intros HC HB HE i. induction i as [i IH] using lt_wf_ind. intros Hi.
  destruct (Rle_or_lt 0 (Y i)) as [|Hneg]; auto. exfalso.
  destruct (lt_dec i 2). { specialize (HB i ltac:(lia)). lra. }
  specialize (IH (i - 2)%nat ltac:(lia) ltac:(lia)). apply (concave_down N Y i); auto; try lia; lra.
Qed.

Definition zprev (z : nat -> R) (j : nat) : R := if j <? 2 then 0 else z (j - 2)%nat.
Definition znext (m : nat) (z : nat -> R) (j : nat) : R := if j + 2 <? m then z (j + 2)%nat else 0.
Lemma max_principle m (z : nat -> R) rho : 0 <= rho ->
  (forall j, (j < m)%nat -> 2 * z j - zprev z j - znext m z j <= rho) ->
  forall j, (j < m)%nat -> z j <= rho * (INR j + 2) * (INR m + 1 - INR j) / 8.
Proof.
  intros Hr Hz j Hj. set (psi := fun i : nat => rho * INR i * (INR m + 3 - INR i) / 8).
  set (Y := fun i : nat => psi i - (if i <? 2 then 0 else if i - 2 <? m then z (i - 2)%nat else 0)).
  assert (P : 0 <= Y (j + 2)%nat).
  { assert (B : forall i, (i <= m + 3)%nat -> 0 <= psi i).
    { intros i Hi. unfold psi. apply le_INR in Hi. rewrite plus_INR in Hi. change (INR 3) with 3 in Hi || (replace (INR 3) with 3 in Hi by (cbn; ring)).
      pose proof (pos_INR i). apply Rmult_le_pos; [|lra]. apply Rmult_le_pos; [|lra]. apply Rmult_le_pos; auto. }
    apply (concave_pos (m + 2) Y); try lia.
    - intros i Hi. unfold Y.
      assert (Q : psi (i - 2)%nat + psi (i + 2)%nat = 2 * psi i - rho).
      { unfold psi. rewrite minus_INR, plus_INR by lia. replace (INR 2) with 2 by (cbn; ring). field. }
      specialize (Hz (i - 2)%nat ltac:(lia)). unfold zprev, znext in Hz.
      destruct (Nat.ltb_spec i 2); [lia|]. destruct (Nat.ltb_spec (i + 2) 2); [lia|]. destruct (Nat.ltb_spec (i - 2) m); [|lia].
      replace (i + 2 - 2)%nat with i by lia. replace (i - 2 + 2)%nat with i in Hz by lia.
      destruct (Nat.ltb_spec (i - 2) 2) as [C|C], (Nat.ltb_spec i m) as [D|D], (Nat.ltb_spec (i - 2 - 2) m); try lia; lra.
    - intros i Hi. unfold Y. destruct (Nat.ltb_spec i 2); [|lia]. specialize (B i ltac:(lia)). lra.
    - intros i Hi. unfold Y. destruct (Nat.ltb_spec i 2). { specialize (B i ltac:(lia)). lra. }
      destruct (Nat.ltb_spec (i - 2) m); [lia|]. specialize (B i ltac:(lia)). lra. }
  unfold Y, psi in P. destruct (Nat.ltb_spec (j + 2) 2); [lia|]. replace (j + 2 - 2)%nat with j in P by lia. destruct (Nat.ltb_spec j m); [|lia].
  rewrite plus_INR in P. replace (INR 2) with 2 in P by (cbn; ring). lra.
Qed.
Lemma max_principle_abs m (z : nat -> R) rho : 0 <= rho ->
  (forall j, (j < m)%nat -> Rabs (2 * z j - zprev z j - znext m z j) <= rho) ->
  forall j, (j < m)%nat -> Rabs (z j) <= rho * (INR m + 3) * (INR m + 3) / 32.
Proof.
  intros Hr Hz j Hj.
  assert (B : rho * (INR j + 2) * (INR m + 1 - INR j) / 8 <= rho * (INR m + 3) * (INR m + 3) / 32).
  { assert (0 <= rho * ((INR m + 3) * (INR m + 3) - 4 * ((INR j + 2) * (INR m + 1 - INR j)))).
    { apply Rmult_le_pos; auto. pose proof (Rle_0_sqr ((INR j + 2) - (INR m + 1 - INR j))) as S. unfold Rsqr in S. lra. }
    lra. }
  apply Rabs_le. split.
  - enough (- z j <= rho * (INR j + 2) * (INR m + 1 - INR j) / 8) by lra. apply (max_principle m (fun i => - z i) rho Hr); auto.
    intros i Hi. specialize (Hz i Hi). unfold zprev, znext in *. apply Rabs_le_inv in Hz. destruct (i <? 2), (i + 2 <? m); lra.
  - enough (z j <= rho * (INR j + 2) * (INR m + 1 - INR j) / 8) by lra. apply (max_principle m z rho Hr); auto.
    intros i Hi. specialize (Hz i Hi). apply Rabs_le_inv in Hz. lra.
Qed.

Lemma bounded_max n (z : nat -> R) : exists M, 0 <= M /\ (forall j, (j < n)%nat -> Rabs (z j) <= M) /\ (M = 0 \/ exists j, (j < n)%nat /\ M = Rabs (z j)).
Proof.
  induction n as [|n (M & M0 & HM & HA)]. exists 0. split; [lra|]. split; [intros; lia|auto].
  destruct (Rle_or_lt (Rabs (z n)) M).
  - exists M. split; auto. split. intros j Hj. destruct (Nat.eq_dec j n) as [->|]; auto. apply HM. lia.
    destruct HA as [|(j & Hj & E)]; auto. right. exists j. split; auto.
  - exists (Rabs (z n)). split. apply Rabs_pos. split. intros j Hj. destruct (Nat.eq_dec j n) as [->|]. lra. specialize (HM j ltac:(lia)). lra.
    right. exists n. split; auto.
Qed.

(** ** The Dirichlet stencil in any arithmetic *)
Section Gen.
Context {A T : Type} {N : Num A} {V : Vec A T}.
Lemma st2_new_gen (diag low2 : list A) m : (2 <= m)%nat -> length diag = m -> length low2 = m ->
  st2_new diag low2 = Ok (mk_st2 diag low2
    (map (fun i => nadd (nmul diag.[i] diag.[i]) (nmul low2.[i] low2.[i])) (seq 0 m))
    (map (fun i => nmul diag.[i+2] low2.[i]) (seq 0 (m - 2)))).
Proof.
  intros Hm Hd Hl. unfold st2_new, get_tdma_diagonals. rewrite Hd.
  unfold usub. destruct (Nat.leb_spec 2 m); [|lia]. cbn [bind].
  rewrite (fill_eq _ _ (fun i => nadd (nmul diag.[i] diag.[i]) (nmul low2.[i] low2.[i]))).
  2:{ rewrite repeat_length. intros. rdok. reflexivity. }
  cbn [bind].
  rewrite (fill_eq _ _ (fun i => nmul diag.[i+2] low2.[i])).
  2:{ rewrite repeat_length. intros. rdok. reflexivity. }
  cbn [bind fst snd]. rewrite !repeat_length. reflexivity.
Qed.
Definition dir_st2 (m : nat) : st2 A :=
  mk_st2 (repeat n1 m) (repeat (nopp n1) m)
    (map (fun i => nadd (nmul (repeat n1 m).[i] (repeat n1 m).[i]) (nmul (repeat (nopp n1) m).[i] (repeat (nopp n1) m).[i])) (seq 0 m))
    (map (fun i => nmul (repeat n1 m).[i+2] (repeat (nopp n1) m).[i]) (seq 0 (m - 2))).
Lemma dir_new n : (4 <= n)%nat -> compo_new KDirichlet n = Ok (mk_compo n (n - 2) (mk_cheb n n) (Dirichlet (dir_st2 (n - 2)))).
Proof.
  intros Hn. unfold compo_new, stencil_new, get_m, usub, cheb_new. destruct (Nat.leb_spec 2 n); [|lia]. cbn [bind].
  rewrite (st2_new_gen _ _ (n - 2)) by (rewrite ?repeat_length; lia). reflexivity.
Qed.
Lemma dir_lens m : (2 <= m)%nat -> st2_lens m (dir_st2 m).
Proof. intros. unfold st2_lens, dir_st2. cbn [d2_diag d2_low2 d2_tdiag d2_toff2]. rewrite !repeat_length, !map_length, !seq_length. lia. Qed.
Lemma dir_to_ortho n (v o : list T) : (4 <= n)%nat -> length v = (n - 2)%nat -> length o = n ->
  wp (compo_to_ortho (mk_compo n (n - 2) (mk_cheb n n) (Dirichlet (dir_st2 (n - 2)))) v o)
    (fun a => length a = n /\ forall k, (k < n)%nat -> a.[k] =
      if k <? 2 then vmul v.[k] n1 else if k <? n - 2 then vadd (vmul v.[k] n1) (vmul v.[k - 2] (nopp n1)) else vmul v.[k - 2] (nopp n1)).
Proof.
  intros Hn Lv Lo. unfold compo_to_ortho, stencil_dot. cbn [p_st]. eapply wp_mono. { apply (st2_dot_entries (dir_st2 (n - 2)) n); auto. apply dir_lens; lia. }
  intros a [La Ea]. split; auto. intros k Hk. rewrite Ea by auto. unfold dot2_entry, dir_st2. cbn [d2_diag d2_low2].
  destruct (Nat.ltb_spec k 2). rewrite at_repeat by lia. auto.
  destruct (Nat.ltb_spec k (n - 2)); rewrite ?at_repeat by lia; auto.
Qed.
Lemma dir_from_ortho n (a o : list T) : (5 <= n)%nat -> length a = n -> length o = (n - 2)%nat ->
  compo_from_ortho (mk_compo n (n - 2) (mk_cheb n n) (Dirichlet (dir_st2 (n - 2)))) a o =
    tdma Unchecked (d2_toff2 (dir_st2 (n - 2))) (d2_tdiag (dir_st2 (n - 2))) (d2_toff2 (dir_st2 (n - 2)))
      (map (fun i => vadd (vmul a.[i] n1) (vmul a.[i + 2] (nopp n1))) (seq 0 (n - 2))).
Proof.
  intros Hn La Lo. unfold compo_from_ortho. cbn [p_st]. rewrite (stencil_solve_eq KDirichlet n); auto; cbn [smin]; try lia.
  unfold solve_band, solve_rhs. f_equal. unfold sdim. cbn [sstep]. replace (n - 2 * 1)%nat with (n - 2)%nat by lia.
  2: { cbn [st_lens]. unfold sdim. cbn [sstep]. replace (n - 2 * 1)%nat with (n - 2)%nat by lia. apply dir_lens; lia. }
  apply map_ext_in. intros i Hi. apply in_seq in Hi. unfold dir_st2. cbn [d2_diag d2_low2]. rewrite !at_repeat by lia. auto.
Qed.
End Gen.

(** ** Floating-point *)
Definition dir_coef (n : nat) (c : nat -> R) (k : nat) : R := (if k <? n - 2 then c k else 0) - (if k <? 2 then 0 else c (k - 2)%nat).

Section Fl.
Context {A : Type} {N : Num A} {u eta : R} {rnd : R -> R} {zmax : Z} {inr : R -> Prop} {fin : A -> Prop} {val : A -> R}
  (FA : float_arith N u eta rnd zmax inr fin val) {T : Type} {V : Vec A T} {VC : VecC N T V}.
Let RN := fa_rnd _ _ _ _ _ _ _ _ FA.
Let FF := fa_float _ _ _ _ _ _ _ _ FA.
Notation Xv := (X (val := val)).

Lemma fin_m1 : fin (nopp n1) /\ val (nopp n1) = -1.
Proof.
  destruct (fa_1 _ _ _ _ _ _ _ _ FA) as [F E]. destruct (fa_opp _ _ _ _ _ _ _ _ FA n1) as [G H]. rewrite H, E. split; [tauto|lra].
Qed.
Lemma mul_1 x : fin (nmul x n1) -> fin x /\ val (nmul x n1) = val x.
Proof.
  intros F. destruct (fa_mul _ _ _ _ _ _ _ _ FA _ _ F) as (Fx & _ & E). split; auto. rewrite E, (proj2 (fa_1 _ _ _ _ _ _ _ _ FA)), Rmult_1_r. auto.
Qed.
Lemma mul_m1 x : fin (nmul x (nopp n1)) -> fin x /\ val (nmul x (nopp n1)) = - val x.
Proof.
  intros F. destruct (fa_mul _ _ _ _ _ _ _ _ FA _ _ F) as (Fx & _ & E). split; auto. rewrite E, (proj2 fin_m1).
  replace (val x * -1) with (- val x) by ring. rewrite (rn_opp _ _ _ RN). f_equal. auto.
Qed.
Lemma inr_8 : inr 8.
Proof. apply (fa_inrz _ _ _ _ _ _ _ _ FA). pose proof (fa_zmax _ _ _ _ _ _ _ _ FA). cbn. lia. Qed.
Lemma rnd_int z : (Z.abs z <= 1024)%Z -> rnd (IZR z) = IZR z.
Proof. intros. pose proof (fa_zmax _ _ _ _ _ _ _ _ FA). destruct (fa_int _ _ _ _ _ _ _ _ FA z) as [F E]. lia. rewrite <- E. auto. Qed.
Lemma inr_small x : Rabs x <= 8 -> inr x.
Proof. intros. apply (fa_inr _ _ _ _ _ _ _ _ FA) with 8. rewrite (Rabs_pos_eq 8) by lra. auto. apply inr_8. Qed.
Lemma unit_mul x y : fin x -> fin y -> (val x = 1 \/ val x = -1) -> (val y = 1 \/ val y = -1) -> fin (nmul x y) /\ val (nmul x y) = val x * val y.
Proof.
  intros Fx Fy Hx Hy. assert (E : rnd (val x * val y) = val x * val y /\ Rabs (val x * val y) <= 8).
  { destruct Hx as [-> | ->], Hy as [-> | ->].
    - replace (1 * 1) with 1 by ring. split. apply (rnd_int 1). cbn; lia. rewrite Rabs_pos_eq; lra.
    - replace (1 * -1) with (-1) by ring. split. apply (rnd_int (-1)). cbn; lia. rewrite Rabs_left; lra.
    - replace (-1 * 1) with (-1) by ring. split. apply (rnd_int (-1)). cbn; lia. rewrite Rabs_left; lra.
    - replace (-1 * -1) with 1 by ring. split. apply (rnd_int 1). cbn; lia. rewrite Rabs_pos_eq; lra. }
  assert (F : fin (nmul x y)). { apply (fa_mulF _ _ _ _ _ _ _ _ FA); auto. rewrite (proj1 E). apply inr_small, E. }
  split; auto. destruct (fa_mul _ _ _ _ _ _ _ _ FA _ _ F) as (_ & _ & ->). apply E.
Qed.
Lemma dir_toff2 m j : (j < m - 2)%nat -> fin (d2_toff2 (dir_st2 m)).[j] /\ val (d2_toff2 (dir_st2 m)).[j] = -1.
Proof.
  intros Hj. unfold dir_st2. cbn [d2_toff2]. rewrite at_map_seq by lia. rewrite !at_repeat by lia.
  destruct (fa_1 _ _ _ _ _ _ _ _ FA) as [F1 E1]. destruct fin_m1 as [F2 E2].
  destruct (unit_mul n1 (nopp n1)) as [F E]; auto. split; auto. rewrite E, E1, E2. ring.
Qed.
Lemma dir_tdiag m j : (j < m)%nat -> fin (d2_tdiag (dir_st2 m)).[j] /\ val (d2_tdiag (dir_st2 m)).[j] = 2.
Proof.
  intros Hj. unfold dir_st2. cbn [d2_tdiag]. rewrite at_map_seq by lia. rewrite !at_repeat by lia.
  destruct (fa_1 _ _ _ _ _ _ _ _ FA) as [F1 E1]. destruct fin_m1 as [F2 E2].
  destruct (unit_mul n1 n1) as [F3 E3]; auto. destruct (unit_mul (nopp n1) (nopp n1)) as [F4 E4]; auto.
  assert (E : val (nmul n1 n1) + val (nmul (nopp n1) (nopp n1)) = 2). { rewrite E3, E4, E1, E2. ring. }
  assert (F : fin (nadd (nmul n1 n1) (nmul (nopp n1) (nopp n1)))).
  { apply (fa_addF _ _ _ _ _ _ _ _ FA); auto. rewrite E. rewrite (rnd_int 2) by (cbn; lia). apply inr_small. rewrite Rabs_pos_eq; lra. }
  split; auto. destruct (fa_add _ _ _ _ _ _ _ _ FA _ _ F) as (_ & _ & ->). rewrite E. apply (rnd_int 2). cbn; lia.
Qed.

(** to_ortho *)
Lemma dir_to_ortho_err n (v o a : list T) p : (4 <= n)%nat -> length v = (n - 2)%nat -> length o = n ->
  compo_to_ortho (mk_compo n (n - 2) (mk_cheb n n) (Dirichlet (dir_st2 (n - 2)))) v o = Ok a ->
  forall k, (k < n)%nat -> fin (cp p a.[k]) ->
    Rabs (Xv p a k - dir_coef n (Xv p v) k) <= u * Rabs (dir_coef n (Xv p v) k) /\
    ((k < n - 2)%nat -> fin (cp p v.[k])) /\ ((2 <= k)%nat -> fin (cp p v.[k - 2])).
Proof.
  intros Hn Lv Lo E k Hk F. pose proof (dir_to_ortho n v o Hn Lv Lo) as W. rewrite E in W. cbn [wp] in W. destruct W as [_ W].
  specialize (W k Hk). unfold dir_coef. unfold X at 1. rewrite W in F |- *. pose proof (rn_u _ _ _ RN) as [U _].
  destruct (Nat.ltb_spec k 2); [|destruct (Nat.ltb_spec k (n - 2))].
  - destruct (Nat.ltb_spec k (n - 2)); [|lia]. rewrite cp_mul in F |- *. destruct (mul_1 _ F) as [F1 ->]. split; [|split; auto; lia].
    change (val (cp p v.[k])) with (Xv p v k). rewrite Rminus_0_r, Rminus_eq_0, Rabs_R0. apply Rmult_le_pos; auto. apply Rabs_pos.
  - rewrite cp_add in F |- *. destruct (fa_add _ _ _ _ _ _ _ _ FA _ _ F) as (F1 & F2 & ->). rewrite cp_mul in F1, F2 |- *. rewrite cp_mul.
    destruct (mul_1 _ F1) as [F3 ->]. destruct (mul_m1 _ F2) as [F4 ->]. split; auto.
    apply (rn_sum _ _ _ RN); auto. rewrite (rn_opp _ _ _ RN). f_equal. auto.
  - rewrite cp_mul in F |- *. destruct (mul_m1 _ F) as [F1 ->]. split; [|split; auto; lia].
    change (val (cp p v.[k - 2])) with (Xv p v (k - 2)). replace (- Xv p v (k - 2) - (0 - Xv p v (k - 2))) with 0 by ring. rewrite Rabs_R0. apply Rmult_le_pos; auto. apply Rabs_pos.
Qed.

(** from_ortho: the rows of the system it solves, with the errors. *)
Lemma dir_from_rows n (a o x : list T) : (5 <= n)%nat -> length a = n -> length o = (n - 2)%nat ->
  compo_from_ortho (mk_compo n (n - 2) (mk_cheb n n) (Dirichlet (dir_st2 (n - 2)))) a o = Ok x ->
  (forall p j, (j < n - 2)%nat -> fin (cp p x.[j])) ->
  length x = (n - 2)%nat /\ forall p, (forall k, (k < n)%nat -> fin (cp p a.[k])) /\
  forall Xm, (forall j, (j < n - 2)%nat -> Rabs (Xv p x j) <= Xm) ->
  forall j, (j < n - 2)%nat -> exists b, Rabs (b - (Xv p a j - Xv p a (j + 2))) <= u * Rabs (Xv p a j - Xv p a (j + 2)) /\
    Rabs (2 * Xv p x j - zprev (Xv p x) j - znext (n - 2) (Xv p x) j - b) <= 48 * u * Xm + 24 * eta * (1 + 2 * Xm).
Proof.
  intros Hn La Lo E FX. rewrite dir_from_ortho in E by auto. set (rhs := map _ _) in E. set (m := (n - 2)%nat) in *.
  assert (Lr : length rhs = m) by (unfold rhs; rewrite map_length, seq_length; auto).
  destruct (dir_lens (N := N) m ltac:(lia)) as (L1 & L2 & L3 & L4).
  assert (Rl : forall j, (j < m)%nat -> rlo (val := val) (d2_toff2 (dir_st2 m)) j = if j <? 2 then 0 else -1).
  { intros j Hj. unfold rlo. destruct (Nat.ltb_spec j 2); auto. apply dir_toff2; lia. }
  assert (Ru : forall j, (j < m)%nat -> rup (val := val) m (d2_toff2 (dir_st2 m)) j = if j + 2 <? m then -1 else 0).
  { intros j Hj. unfold rup. destruct (Nat.ltb_spec (j + 2) m); auto. apply dir_toff2; lia. }
  destruct (tdma_rows FA (d2_toff2 (dir_st2 m)) (d2_tdiag (dir_st2 m)) (d2_toff2 (dir_st2 m)) m ltac:(lia)
    ltac:(intros; apply dir_toff2; lia) ltac:(intros; apply dir_toff2; lia)) with (md := Unchecked) (rhs := rhs) (x := x) as [Lx HR]; auto; try lia.
  { intros j Hj. destruct (dir_tdiag m j Hj) as [F ->]. split; auto. apply inr_small. rewrite Rabs_pos_eq; lra. }
  { intros j Hj. destruct (dir_tdiag m j Hj) as [_ ->]. rewrite Rl, Ru by auto. rewrite (Rabs_pos_eq 2) by lra.
    destruct (j <? 2), (j + 2 <? m); rewrite ?Rabs_R0, ?(Rabs_left (-1)) by lra; lra. }
  split; auto. intros p.
  assert (FR : forall j, (j < m)%nat -> fin (cp p a.[j]) /\ fin (cp p a.[j + 2]) /\
     Rabs (Xv p rhs j - (Xv p a j - Xv p a (j + 2))) <= u * Rabs (Xv p a j - Xv p a (j + 2))).
  { intros j Hj. destruct (HR p j Hj) as [F _]. unfold X at 1. unfold rhs in *. rewrite at_map_seq in * by auto. cbn [Nat.add] in *.
    rewrite cp_add in F |- *. destruct (fa_add _ _ _ _ _ _ _ _ FA _ _ F) as (F1 & F2 & ->). rewrite cp_mul in F1, F2 |- *. rewrite cp_mul.
    destruct (mul_1 _ F1) as [F3 ->]. destruct (mul_m1 _ F2) as [F4 ->]. split; auto. split; auto.
    apply (rn_sum _ _ _ RN); auto. rewrite (rn_opp _ _ _ RN). f_equal. auto. }
  split.
  { intros k Hk. destruct (lt_dec k m). apply FR; auto. destruct (FR (k - 2)%nat ltac:(lia)) as (_ & F & _). replace (k - 2 + 2)%nat with k in F by lia. auto. }
  intros Xm HX j Hj. exists (Xv p rhs j). split. apply FR; auto.
  destruct (HR p j Hj) as [_ HB]. destruct (dir_tdiag m j Hj) as [_ ED]. rewrite ED, Rl, Ru in HB by auto.
  pose proof (rn_u _ _ _ RN) as [U _]. pose proof (rn_eta _ _ _ RN) as H0.
  assert (Z : Rabs (Xv p x (j - 2)) <= Xm) by (apply HX; lia).
  assert (Y : Rabs (Xv p x (j + 2)) <= Xm).
  { destruct (lt_dec (j + 2) m). apply HX; auto. rewrite (X_over FA) by lia. rewrite Rabs_R0. specialize (HX j Hj). pose proof (Rabs_pos (Xv p x j)). lra. }
  specialize (HX j Hj). pose proof (Rabs_pos (Xv p x j)). pose proof (Rabs_pos (Xv p x (j - 2))). pose proof (Rabs_pos (Xv p x (j + 2))).
  rewrite (Rabs_pos_eq 2) in HB by lra.
  assert (G1 : 12 * u * (Rabs (if j <? 2 then 0 else -1) * Rabs (Xv p x (j - 2)) + 2 * Rabs (Xv p x j) + Rabs (if j + 2 <? m then -1 else 0) * Rabs (Xv p x (j + 2))) <= 48 * u * Xm).
  { replace (48 * u * Xm) with (12 * u * (4 * Xm)) by ring. apply Rmult_le_compat_l. lra.
    destruct (j <? 2), (j + 2 <? m); rewrite ?Rabs_R0, ?(Rabs_left (-1)) by lra; lra. }
  assert (G2 : 8 * eta * (1 + 2) * (1 + Rabs (Xv p x j) + Rabs (Xv p x (j + 2))) <= 24 * eta * (1 + 2 * Xm)).
  { replace (24 * eta * (1 + 2 * Xm)) with (8 * eta * (1 + 2) * (1 + 2 * Xm)) by ring. apply Rmult_le_compat_l. lra. lra. }
  replace (2 * Xv p x j - zprev (Xv p x) j - znext m (Xv p x) j - Xv p rhs j)
    with ((if j <? 2 then 0 else -1) * Xv p x (j - 2) + 2 * Xv p x j + (if j + 2 <? m then -1 else 0) * Xv p x (j + 2) - Xv p rhs j).
  2: { unfold zprev, znext. destruct (j <? 2), (j + 2 <? m); ring. }
  lra.
Qed.
End Fl.
