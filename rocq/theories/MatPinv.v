(** The pseudo-inverses of the differentiation matrices in f64. *)
From Coq Require Import List Arith Lia Bool ZArith Reals Lra.
From Flocq Require Import Core BinarySingleNaN.
From Verif Require Import Base Num Linalg LinalgProofs Cheb ChebPoly ChebGrad ChebMat ChebPinv FourierF64 Rounding MatRel MatF64 MatCheb.
Import ListNotations.
Local Open Scope R_scope.

(** writes out of range panic, whatever is written *)
Lemma mr_mwr' {A B} {dA : Dflt A} {dB : Dflt B} (Q : A -> B -> Prop) r c M D i j x y :
  mr Q r c M D -> ((i < r)%nat -> Q x y) -> rrel (mr Q r c) (mwr M i j x) (mwr D i j y).
Proof.
  intros H HQ. destruct (le_lt_dec r i) as [Hi|Hi]. 2: apply mr_mwr; auto.
  destruct H as [H [L _]]. pose proof (Forall2_length H) as LM. unfold mwr, rd.
  rewrite (proj2 (nth_error_None D i)) by lia. rewrite (proj2 (nth_error_None M i)) by lia. exact I.
Qed.

Lemma pdiag_rel (Q : f64 -> R -> Prop) n P D lo hi col num (d : Z -> res Z) :
  (forall a x, entz a x -> Q a x) -> mr Q n n P D -> (Z.abs num <= 2 ^ 10)%Z ->
  (forall i z, (lo <= i < n)%nat -> (Z.of_nat i < hi)%Z -> d (Z.of_nat i) = Ok z -> (0 < z <= 2 ^ 64)%Z) ->
  rrel (mr Q n n) (pdiag (A := f64) P lo hi col num d) (pdiag (A := R) D lo hi col num d).
Proof.
  intros HQ H Hn Hd. unfold pdiag. apply rrel_for_each; auto. intros i M E Hi HM. apply in_seq in Hi.
  apply rrel_bind_same. intros z Hz. apply mr_mwr'; auto. intros Hin.
  specialize (Hd i z ltac:(lia) ltac:(lia) Hz). apply HQ. split. apply ent_ints; lia.
  apply (moderate_quot' num z); lia.
Qed.

Lemma mr_mono {A B} {dA : Dflt A} {dB : Dflt B} (Q Q' : A -> B -> Prop) r c M D : mr Q r c M D -> (forall a x, Q a x -> Q' a x) -> mr Q' r c M D.
Proof.
  intros [H HD] W. split; auto. clear HD. induction H as [|l l' M D Hl HM IH]; constructor; auto. clear - Hl W. induction Hl; constructor; auto.
Qed.
Lemma entz_double a x : entz a x -> ent (nmul a (nofZ 2%Z)) (nmul x (nofZ 2%Z)).
Proof.
  intros [E M]. destruct two_f64 as [F V].
  change (nmul x (nofZ 2%Z) : R) with (x * bpow radix2 1).
  apply ent_scale; auto; try lia. destruct M as [->|[M1 M2]]. left; ring. right.
  rewrite Rabs_mult, (Rabs_pos_eq (bpow radix2 1)) by apply bpow_ge_0. split.
  - apply Rle_trans with (bpow radix2 (-100) * bpow radix2 1). rewrite <- bpow_plus. apply bpow_le; lia.
    apply Rmult_le_compat_r; auto. apply bpow_ge_0.
  - apply Rle_trans with (bpow radix2 100 * bpow radix2 1). apply Rmult_le_compat_r; auto. apply bpow_ge_0.
    rewrite <- bpow_plus. apply bpow_le; lia.
Qed.


Lemma mdouble_rel n P D i j : mr entz n n P D -> rrel (mr ent n n) (mdouble (A := f64) P i j) (mdouble (A := R) D i j).
Proof.
  intros H. unfold mdouble. eapply rrel_bind. apply rrel_mrd, H. intros a x Hax. cbv beta in Hax.
  apply mr_mwr. eapply mr_mono. exact H. intros ? ? [E _]; exact E. apply entz_double; auto.
Qed.

(** [2. * i as f64]: doubling the converted integer is exact *)
Lemma twice_f64 i : (0 < i <= 2 ^ 64)%Z -> let b := nmul (nofZ 2%Z) (nofZ i) : f64 in
  f64_fin b /\ Rabs (f64_val b - IZR (2 * i)) <= u64 * Rabs (IZR (2 * i)).
Proof.
  intros Hi b. pose proof f64_float_arith as FA. destruct two_f64 as [F2 V2].
  destruct (nofZ_rnd i ltac:(lia)) as (Fi & Vi & Ei). pose proof u64_small as Hu.
  assert (I1 : 1 <= Rabs (IZR i) <= bpow radix2 64).
  { rewrite <- abs_IZR. split. apply IZR_le; lia. change (bpow radix2 64) with (IZR (2 ^ 64)). apply IZR_le; lia. }
  assert (S : / 2 <= Rabs (f64_val (nofZ i)) <= 2 * bpow radix2 64).
  { assert (Rabs (IZR i) <= Rabs (f64_val (nofZ i)) + Rabs (f64_val (nofZ i) - IZR i)).
    { replace (IZR i) with (f64_val (nofZ i) - (f64_val (nofZ i) - IZR i)) at 1 by ring. unfold Rminus at 1; eapply Rle_trans; [apply Rabs_triang|rewrite Rabs_Ropp; lra]. }
    assert (Rabs (f64_val (nofZ i)) <= Rabs (IZR i) + Rabs (f64_val (nofZ i) - IZR i)).
    { replace (f64_val (nofZ i)) with ((f64_val (nofZ i) - IZR i) + IZR i) at 1 by ring. eapply Rle_trans; [apply Rabs_triang|lra]. }
    nra. }
  assert (X : rnd64 (f64_val (nofZ 2%Z) * f64_val (nofZ i)) = f64_val (nofZ i) * bpow radix2 1).
  { rewrite V2, Rmult_comm. apply scale_exact. lia. right. apply Rle_trans with (/ 2). 2: lra.
    change (/ 2) with (bpow radix2 (-1)). apply bpow_le; lia. }
  assert (Fb : f64_fin b).
  { apply (fa_mulF _ _ _ _ _ _ _ _ FA); auto. rewrite X. unfold ieee_inr. rewrite Rabs_mult, (Rabs_pos_eq (bpow radix2 1)) by apply bpow_ge_0.
    apply Rle_lt_trans with (bpow radix2 66). 2: apply bpow_lt; lia. change (bpow radix2 1) with 2.
    replace (bpow radix2 66) with (4 * bpow radix2 64). lra. change 4 with (bpow radix2 2). rewrite <- bpow_plus. reflexivity. }
  split; auto. destruct (fa_mul _ _ _ _ _ _ _ _ FA _ _ Fb) as (_ & _ & V). fold b in V. rewrite V, X, mult_IZR. change (bpow radix2 1) with 2.
  replace (f64_val (nofZ i) * 2 - 2 * IZR i) with (2 * (f64_val (nofZ i) - IZR i)) by ring. rewrite !Rabs_mult, (Rabs_pos_eq 2) by lra. lra.
Qed.

Lemma twice_ent num i : (Z.abs num <= 2 ^ 53)%Z -> (0 < i <= 2 ^ 64)%Z ->
  ent (ndiv (nofZ num) (nmul (nofZ 2%Z) (nofZ i))) (ndiv (nofZ num) (nmul (nofZ 2%Z) (nofZ i))).
Proof.
  intros Hn Hi. destruct (twice_f64 i Hi) as [F E]. destruct (fa_int _ _ _ _ _ _ _ _ f64_float_arith num Hn) as [Fn Vn].
  replace (ndiv (nofZ num) (nmul (nofZ 2%Z) (nofZ i)) : R) with (IZR num / IZR (2 * i)) by (rewrite mult_IZR; reflexivity).
  apply ent_quot; auto. apply not_0_IZR; lia. apply moderate_quot; lia.
Qed.

Lemma is_in_pos x z w B : is_in x w B -> (B < u64max)%Z -> (0 < w)%Z -> x = Ok z -> (0 < z <= 2 ^ 64)%Z.
Proof. intros [-> Hw] HB Hp E. assert (w = z) by congruence. subst z. change (2 ^ 64)%Z with u64max. lia. Qed.
Ltac pos := repeat apply Z.mul_pos_pos; try lia; try nia.

Lemma ent_int z : (Z.abs z <= 2 ^ 53)%Z -> ent (nofZ z) (IZR z).
Proof.
  intros Hz. destruct (fa_int _ _ _ _ _ _ _ _ f64_float_arith z Hz) as [F V]. split; auto. split.
  - rewrite V, Rminus_diag_eq by auto. rewrite Rabs_R0. pose proof u64_small. pose proof (Rabs_pos (IZR z)). nra.
  - replace (IZR z) with (IZR z / IZR 1) by field. apply moderate_quot; lia.
Qed.

Lemma h_bound bm n k h i B : (Z.of_nat n <= B)%Z -> (B < u64max)%Z -> (0 <= k <= 8)%Z -> (20 <= B)%Z ->
  uminus bm (Ok (Z.of_nat n)) (Ok k) = Ok h -> (i < n)%nat -> (Z.of_nat i < h)%Z -> (Z.of_nat i <= B - k - 1)%Z.
Proof.
  intros HB HB' Hk H20 Hh Hi Hih. destruct (Z.le_gt_cases k (Z.of_nat n)).
  - unfold uminus in Hh. cbn [bind] in Hh. rewrite uwrap_ok in Hh by lia. injection Hh as <-. lia.
  - lia.
Qed.

Ltac pside Hn B :=
  let i := fresh "i" in let z := fresh "z" in let Hz := fresh "Hz" in let Hi := fresh "Hi" in let Hb := fresh "Hb" in
  intros i z Hb Hi Hz; cbv beta in Hz;
  first [ assert ((Z.of_nat i <= B)%Z) by lia
        | match goal with Hh : uminus _ _ (Ok ?k) = Ok ?h |- _ =>
            assert ((Z.of_nat i <= B)%Z) by (pose proof (h_bound _ _ k h i _ Hn eq_refl ltac:(lia) ltac:(lia) Hh ltac:(lia) Hi); lia) end ];
  refine (is_in_pos _ z _ _ _ _ _ Hz); [isin B | reflexivity | pos].
Ltac pf Hn B := eapply pdiag_rel; [|eassumption|lia|pside Hn B]; auto.
Ltac pr Hn B := eapply rrel_bind; [ pf Hn B | cbv beta; intros ? ? ? ].

Lemma pinv_f64 bm n d : (Z.of_nat n <= psafe d)%Z -> rrel (mr ent n n) (pinv (A := f64) bm n d) (pinv (A := R) bm n d).
Proof.
  intros Hn.
  assert (Z0 : mr entz n n (mzeros n0 n n) (mzeros 0 n n)).
  { apply mr_zeros. split. apply ent_0. left; auto. }
  assert (W : forall a x, entz a x -> ent a x) by (intros a x [E _]; exact E).
  assert (W' : forall a x, entz a x -> entz a x) by auto.
  assert (Z1 : mr ent n n (mzeros n0 n n) (mzeros 0 n n)) by (eapply mr_mono; eauto).
  unfold pinv. cbv zeta. destruct d as [|[|[|[|[|d]]]]]; try exact I.
  - cbn [psafe] in Hn. unfold u64max in Hn. eapply rrel_bind with (Q := mr ent n n). apply mr_mwr; auto. apply (ent_int 1); discriminate.
    intros P D HP. eapply rrel_bind with (Q := mr ent n n).
    { apply rrel_for_each; auto. intros i M E Hi HM. apply in_seq in Hi. apply mr_mwr'; auto. intros. apply (twice_ent 1); lia. }
    intros P' D' HP'. apply rrel_bind_same. intros h Hh. apply rrel_for_each; auto. intros i M E Hi HM. apply in_seq in Hi.
    apply mr_mwr'; auto. intros. apply (twice_ent (-1)); lia.
  - cbn [psafe] in Hn. eapply rrel_bind with (Q := mr entz n n). apply mr_mwr; auto.
    { split. apply (ent_ints 1 4); lia. apply (moderate_quot' 1 4); lia. }
    intros P D HP. pr Hn 2147483648%Z. apply rrel_bind_same. intros h Hh. pr Hn 2147483646%Z. 
    apply rrel_bind_same. intros h' Hh'. eapply rrel_mono. pf Hn 2147483644%Z. intros; eapply mr_mono; eauto.
  - cbn [psafe] in Hn. clear Z1. pr Hn 1321123%Z. eapply rrel_bind. apply mdouble_rel; eassumption. cbv beta; intros P D HP.
    apply rrel_bind_same. intros h Hh. pr Hn 1321121%Z. apply rrel_bind_same. intros h' Hh'. pr Hn 1321119%Z.
    apply rrel_bind_same. intros h'' Hh''. pf Hn 1321117%Z.
  - cbn [psafe] in Hn. clear Z1. pr Hn 32769%Z. eapply rrel_bind. apply mdouble_rel; eassumption. cbv beta; intros P D HP.
    apply rrel_bind_same. intros h Hh. pr Hn 32767%Z. apply rrel_bind_same. intros h' Hh'. pr Hn 32765%Z.
    apply rrel_bind_same. intros h'' Hh''. pr Hn 32763%Z. apply rrel_bind_same. intros h3 Hh3. pf Hn 32761%Z.
Qed.
