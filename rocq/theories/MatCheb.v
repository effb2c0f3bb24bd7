(** The differentiation matrices and their pseudo-inverses, in f64 and in exact
    arithmetic, entry by entry. *)
From Coq Require Import List Arith Lia Bool ZArith Reals Lra.
From Flocq Require Import Core BinarySingleNaN.
From Verif Require Import Base Num Linalg LinalgProofs Cheb ChebPoly ChebGrad ChebMat ChebPinv FourierF64 Rounding MatRel MatF64.
Import ListNotations.
Local Open Scope R_scope.

(** related entry by entry, and r x c *)
Definition mr {A B} {dA : Dflt A} {dB : Dflt B} (Q : A -> B -> Prop) (r c : nat) (M : list (list A)) (D : list (list B)) : Prop :=
  mrel Q M D /\ mat_dims D r c.

Lemma mwr_dims {A} {dA : Dflt A} (D D' : list (list A)) i j x r c : mat_dims D r c -> mwr D i j x = Ok D' -> mat_dims D' r c.
Proof.
  intros HD E. destruct (le_lt_dec r i) as [Hi|Hi].
  { exfalso. unfold mwr, rd in E. destruct HD as [L _]. rewrite (proj2 (nth_error_None D i)) in E by lia. discriminate. }
  destruct (le_lt_dec c j) as [Hj|Hj].
  { exfalso. destruct HD as [L R]. unfold mwr in E. rewrite rd_at in E by lia. cbn [bind] in E. unfold wr in E at 1. rewrite R in E by lia.
    destruct (Nat.ltb_spec j c); [lia|]. discriminate. }
  assert (W : wp (mwr D i j x) (fun D' => mat_dims D' r c)) by (apply (wp_mwr D r c); auto).
  rewrite E in W. exact W.
Qed.

Section Rel.
Context {A B : Type} {dA : Dflt A} {dB : Dflt B} (Q : A -> B -> Prop).
Lemma mr_mwr r c M D i j x y : mr Q r c M D -> Q x y -> rrel (mr Q r c) (mwr M i j x) (mwr D i j y).
Proof.
  intros [H HD] HQ. pose proof (rrel_mwr Q M D i j x y H HQ) as W. pose proof (fun D' => mwr_dims D D' i j y r c HD) as P.
  destruct (mwr M i j x), (mwr D i j y); cbn in *; auto. split; auto.
Qed.
Lemma mr_zeros r c x y : Q x y -> mr Q r c (mzeros x r c) (mzeros y r c).
Proof. split. apply mzeros_rel; auto. apply mzeros_dims. Qed.
End Rel.

(** What a relation on entries amounts to for the two results. *)
Lemma rrel_entries {A B} {dA : Dflt A} {dB : Dflt B} (Q : A -> B -> Prop) r c m m' : rrel (mr Q r c) m m' ->
  match m, m' with
  | Ok M, Ok D => mat_dims M r c /\ mat_dims D r c /\ forall i j, (i < r)%nat -> (j < c)%nat -> Q M.[i].[j] D.[i].[j]
  | Panic, Panic => True | UB, UB => True | _, _ => False end.
Proof.
  destruct m as [M| |], m' as [D| |]; cbn; auto. intros [H HD]. split; [|split].
  - exact (mrel_dims Q M D r c H HD).
  - exact HD.
  - intros i j Hi Hj. exact (mrel_at Q M D r c i j H HD Hi Hj).
Qed.

(** ** Differentiation matrices *)
Lemma uwrap_range bm z w : uwrap bm z = Ok w -> (0 <= w < u64max)%Z.
Proof.
  unfold uwrap. destruct (Z.leb_spec 0 z), (Z.ltb_spec z u64max); cbn [andb]; intros E.
  all: try (injection E as <-; lia).
  all: destruct bm; try discriminate; injection E as <-; apply Z.mod_pos_bound; reflexivity.
Qed.
Lemma umul_range bm a b z : umul bm a b = Ok z -> (0 <= z < u64max)%Z.
Proof. unfold umul. destruct a, b; cbn [bind]; try discriminate. apply uwrap_range. Qed.
Lemma dent_range bm d p q z : dent bm d p q = Ok z -> (0 <= z < u64max)%Z.
Proof.
  assert (B : forall (m : res Z) k, (forall a, k a = Ok z -> (0 <= z < u64max)%Z) -> bind m k = Ok z -> (0 <= z < u64max)%Z).
  { intros m k H. destruct m; cbn [bind]; try discriminate. apply H. }
  unfold dent. destruct d as [|[|[|[|d]]]]; unfold dent1, dent2, dent3, dent4; intros E.
  all: repeat (match type of E with bind _ _ = _ => idtac end; revert E; apply B; intros ? E); eapply umul_range; eassumption.
Qed.

Section Diffmat.
Variables (Q Q' : f64 -> R -> Prop).
Hypothesis Q0 : Q n0 0.
Hypothesis Qh : forall a x, Q a x -> Q' (nmul a (ndiv n1 (nofZ 2%Z))) (nmul x (ndiv n1 (nofZ 2%Z))).
Hypothesis Qw : forall a x, Q a x -> Q' a x.

Lemma dmat_fill_rel n off par e (den : f64) (den' : R) :
  (forall p q z, (p < n)%nat -> (p + off <= q < n)%nat -> e (Z.of_nat p) (Z.of_nat q) = Ok z -> ((p + q) mod 2)%nat = par -> Q (ndiv (nofZ z) den) (ndiv (nofZ z) den')) ->
  rrel (mr Q n n) (dmat_fill n off par e den) (dmat_fill n off par e den').
Proof.
  intros He. unfold dmat_fill. apply rrel_for_each. apply mr_zeros; auto. intros p M D Hp HM. apply in_seq in Hp.
  apply rrel_for_each; auto. intros q M' D' Hq HM'. apply in_seq in Hq.
  destruct (Nat.eqb_spec ((p + q) mod 2) par) as [E|E]; [|exact HM'].
  apply rrel_bind_same. intros z Hz. apply mr_mwr; auto. apply (He p q); auto; lia.
Qed.

Lemma dmat_rel bm n d :
  (forall p q z, (p < n)%nat -> (p + d <= q < n)%nat -> dent bm d (Z.of_nat p) (Z.of_nat q) = Ok z -> ((p + q) mod 2)%nat = (d mod 2)%nat ->
     Q (ndiv (nofZ z) (match d with 3%nat => nofZ 4%Z | 4%nat => nofZ 24%Z | _ => nofZ 1%Z end))
       (ndiv (nofZ z) (match d with 3%nat => nofZ 4%Z | 4%nat => nofZ 24%Z | _ => nofZ 1%Z end))) ->
  rrel (mr Q' n n) (dmat (A := f64) bm n d) (dmat (A := R) bm n d).
Proof.
  intros He. unfold dmat. eapply rrel_bind with (Q := mr Q n n).
  - destruct d as [|[|[|[|[|d]]]]]; try exact I; apply dmat_fill_rel; intros; apply (He p q z); auto.
  - intros M D [HM HD]. pose proof (rrel_rd (Forall2 Q) Checked M D 0 HM) as R0.
    destruct (le_lt_dec n 0) as [Hn|Hn].
    { destruct HD as [L _]. destruct D; [|cbn in L; lia]. inversion HM. subst. exact I. }
    pose proof HD as [L HR].
    assert (LM : length M = n) by (rewrite (Forall2_length HM); auto).
    rewrite (rd_at Checked M) by lia. rewrite (rd_at Checked D) by lia. cbn [bind].
    rewrite (rd_at Checked M) in R0 by lia. rewrite (rd_at Checked D) in R0 by lia. cbn [rrel] in R0.
    rewrite !wr_at by lia. cbn [rrel]. split.
    + apply upd_rel. 2: exact (map_rel _ _ _ _ _ _ R0 Qh).
      clear - HM Qw. induction HM as [|l l' M D Hl HM IH]; constructor; auto. clear - Hl Qw. induction Hl; constructor; auto.
    + split. rewrite upd_length. auto. intros i Hi. destruct (Nat.eq_dec i 0) as [->|Ne].
      rewrite at_upd_eq by lia. rewrite map_length. apply HR; lia.
      rewrite at_upd_ne by auto. apply HR; auto.
Qed.
End Diffmat.

Lemma half_f64 : f64_fin (ndiv n1 (nofZ 2%Z)) /\ f64_val (ndiv n1 (nofZ 2%Z)) = bpow radix2 (-1).
Proof.
  pose proof f64_float_arith as FA. destruct (fa_1 _ _ _ _ _ _ _ _ FA) as [F1 V1].
  destruct (fa_int _ _ _ _ _ _ _ _ FA 2%Z ltac:(discriminate)) as [F2 V2].
  assert (E : rnd64 (f64_val n1 / f64_val (nofZ 2%Z)) = bpow radix2 (-1)).
  { rewrite V1, V2. replace (1 / IZR 2) with (bpow radix2 (-1)) by (cbn; lra). apply (format_rnd 53 1024). reflexivity.
    apply generic_format_bpow. unfold FLT_exp. lia. }
  assert (F : f64_fin (ndiv n1 (nofZ 2%Z))).
  { apply (fa_divF _ _ _ _ _ _ _ _ FA); auto. rewrite V2. apply not_0_IZR; lia. rewrite E. unfold ieee_inr.
    rewrite Rabs_pos_eq by apply bpow_ge_0. apply bpow_lt. lia. }
  split; auto. destruct (fa_div _ _ _ _ _ _ _ _ FA _ _ F F2) as [_ V]. rewrite V2. apply not_0_IZR; lia. rewrite V. exact E.
Qed.
Lemma two_f64 : f64_fin (nofZ 2%Z) /\ f64_val (nofZ 2%Z) = bpow radix2 1.
Proof. exact (fa_int _ _ _ _ _ _ _ _ f64_float_arith 2%Z ltac:(discriminate)). Qed.

(** an entry of the matrix before the first row is halved *)
Definition entz (a : f64) (x : R) : Prop := ent a x /\ (x = 0 \/ bpow radix2 (-100) <= Rabs x <= bpow radix2 100).
Lemma entz_half a x : entz a x -> ent (nmul a (ndiv n1 (nofZ 2%Z))) (nmul x (ndiv n1 (nofZ 2%Z))).
Proof.
  intros [E M]. destruct half_f64 as [F V].
  replace (nmul x (ndiv n1 (nofZ 2%Z)) : R) with (x * bpow radix2 (-1)) by (cbn; lra).
  apply ent_scale; auto; try lia. destruct M as [->|[M1 M2]]. left; ring. right.
  rewrite Rabs_mult, (Rabs_pos_eq (bpow radix2 (-1))) by apply bpow_ge_0. split.
  - apply Rle_trans with (bpow radix2 (-100) * bpow radix2 (-1)). rewrite <- bpow_plus. apply bpow_le; lia.
    apply Rmult_le_compat_r; auto. apply bpow_ge_0.
  - apply Rle_trans with (bpow radix2 100 * bpow radix2 (-1)). apply Rmult_le_compat_r; auto. apply bpow_ge_0.
    rewrite <- bpow_plus. apply bpow_le; lia.
Qed.
Lemma moderate_quot' a b : (Z.abs a <= 2 ^ 64)%Z -> (0 < Z.abs b <= 2 ^ 65)%Z ->
  IZR a / IZR b = 0 \/ bpow radix2 (-100) <= Rabs (IZR a / IZR b) <= bpow radix2 100.
Proof.
  intros Ha Hb. destruct (Z.eq_dec a 0) as [->|Na]. left. unfold Rdiv. ring. right.
  assert (Bz : IZR b <> 0) by (apply not_0_IZR; lia). rewrite Rabs_div by auto. rewrite <- !abs_IZR.
  assert (1 <= IZR (Z.abs a) <= IZR (2 ^ 64)) by (split; apply IZR_le; lia).
  assert (1 <= IZR (Z.abs b) <= IZR (2 ^ 65)) by (split; apply IZR_le; lia).
  split.
  - apply Rle_trans with (/ IZR (2 ^ 65)). change (/ IZR (2 ^ 65)) with (bpow radix2 (-65)). apply bpow_le; lia.
    unfold Rdiv. rewrite <- (Rmult_1_l (/ IZR (2 ^ 65))). apply Rmult_le_compat; try lra.
    all: first [apply Rinv_le; lra | apply Rlt_le, Rinv_0_lt_compat; lra].
  - apply Rle_trans with (IZR (2 ^ 64)). 2: change (IZR (2 ^ 64)) with (bpow radix2 64); apply bpow_le; lia.
    unfold Rdiv. rewrite <- (Rmult_1_r (IZR (2 ^ 64))). apply Rmult_le_compat; try lra.
    apply Rlt_le, Rinv_0_lt_compat; lra. rewrite <- Rinv_1. apply Rinv_le; lra.
Qed.

Lemma dmat_f64 bm n d : rrel (mr ent n n) (dmat (A := f64) bm n d) (dmat (A := R) bm n d).
Proof.
  apply dmat_rel with (Q := entz).
  - split. apply ent_0. left; auto.
  - apply entz_half.
  - intros a x [H _]. exact H.
  - intros p q z _ _ Hz _. apply dent_range in Hz. unfold u64max in Hz.
    assert (G : forall k, (0 < k < 100)%Z -> entz (ndiv (nofZ z) (nofZ k)) (ndiv (nofZ z) (nofZ k))).
    { intros k Hk. split. apply ent_ints; lia. apply (moderate_quot' z k); lia. }
    destruct d as [|[|[|[|[|d]]]]]; apply G; lia.
Qed.

(** ** Exact entries *)
Definition exa (e : Z) (a : f64) (x : R) : Prop :=
  f64_fin a /\ f64_val a = x /\ exists m, (Z.abs m <= 2 ^ 53)%Z /\ x = IZR m * bpow radix2 e.

Lemma exa_format m e : (Z.abs m <= 2 ^ 53)%Z -> (-100 <= e <= 0)%Z -> rnd64 (IZR m * bpow radix2 e) = IZR m * bpow radix2 e /\ Rabs (IZR m * bpow radix2 e) < bpow radix2 1024.
Proof.
  intros Hm He. destruct (fa_int _ _ _ _ _ _ _ _ f64_float_arith m Hm) as [F V]. split.
  - rewrite <- V. apply scale_exact. lia. rewrite V. destruct (Z.eq_dec m 0) as [->|]; auto. right.
    rewrite <- abs_IZR. apply Rle_trans with 1. change 1 with (bpow radix2 0). apply bpow_le. lia. apply IZR_le. lia.
  - rewrite Rabs_mult, (Rabs_pos_eq (bpow radix2 e)) by apply bpow_ge_0. rewrite <- abs_IZR.
    apply Rle_lt_trans with (bpow radix2 53 * bpow radix2 0). apply Rmult_le_compat; try apply bpow_ge_0.
    apply IZR_le; lia. change (bpow radix2 53) with (IZR (2 ^ 53)). apply IZR_le; lia. apply bpow_le; lia.
    rewrite <- bpow_plus. apply bpow_lt. lia.
Qed.

Lemma exa_half e a x : (-99 <= e <= 0)%Z -> exa e a x -> exa (e - 1) (nmul a (ndiv n1 (nofZ 2%Z))) (nmul x (ndiv n1 (nofZ 2%Z))).
Proof.
  intros He (F & V & m & Hm & X). destruct half_f64 as [Fh Vh]. pose proof f64_float_arith as FA.
  replace (nmul x (ndiv n1 (nofZ 2%Z)) : R) with (x * bpow radix2 (-1)) by (cbn; lra).
  assert (P : f64_val a * f64_val (ndiv n1 (nofZ 2%Z)) = IZR m * bpow radix2 (e - 1)).
  { rewrite V, Vh, X, Rmult_assoc, <- bpow_plus. reflexivity. }
  destruct (exa_format m (e - 1) Hm ltac:(lia)) as [E B].
  assert (Fr : f64_fin (nmul a (ndiv n1 (nofZ 2%Z)))).
  { apply (fa_mulF _ _ _ _ _ _ _ _ FA); auto. rewrite P, E. exact B. }
  split; auto. destruct (fa_mul _ _ _ _ _ _ _ _ FA _ _ Fr) as (_ & _ & W). rewrite W, P, E. rewrite X, Rmult_assoc, <- bpow_plus.
  split. reflexivity. exists m. auto.
Qed.

Lemma exa_quot e z k m : (-100 <= e <= 0)%Z -> (Z.abs z <= 2 ^ 53)%Z -> (0 < k < 100)%Z -> (Z.abs m <= 2 ^ 53)%Z ->
  IZR z / IZR k = IZR m * bpow radix2 e -> exa e (ndiv (nofZ z) (nofZ k)) (ndiv (nofZ z) (nofZ k)).
Proof.
  intros He Hz Hk Hm X. pose proof f64_float_arith as FA.
  destruct (fa_int _ _ _ _ _ _ _ _ FA z Hz) as [Fz Vz]. destruct (fa_int _ _ _ _ _ _ _ _ FA k ltac:(lia)) as [Fk Vk].
  destruct (exa_format m e Hm He) as [E B].
  assert (Nk : f64_val (nofZ k) <> 0) by (rewrite Vk; apply not_0_IZR; lia).
  assert (Fr : f64_fin (ndiv (nofZ z) (nofZ k))).
  { apply (fa_divF _ _ _ _ _ _ _ _ FA); auto. rewrite Vz, Vk, X, E. exact B. }
  split; auto. destruct (fa_div _ _ _ _ _ _ _ _ FA _ _ Fr Fk Nk) as [_ W]. rewrite W, Vz, Vk, X, E.
  change (ndiv (nofZ z) (nofZ k) : R) with (IZR z / IZR k). split; auto. exists m. auto.
Qed.

(** Largest size for which every entry of order d is below 2^53. *)
Definition exact_size (d : nat) : Z :=
  match d with 1%nat => 2 ^ 52 + 1 | 2%nat => 208064 | 3%nat => 1553 | _ => 191 end%Z.

Lemma iex_53 d p q : (1 <= d <= 4)%nat -> (0 <= p)%Z -> (p + Z.of_nat d <= q)%Z -> (q < exact_size d)%Z ->
  (0 <= iex d p q <= 2 ^ 53)%Z.
Proof.
  intros Hd Hp Hpq Hq.
  assert (d = 1 \/ d = 2 \/ d = 3 \/ d = 4)%nat as [->|[->|[->| ->]]] by lia;
    cbn [iex]; unfold exact_size in Hq; simpl in Hpq.
  - lia.
  - assert (0 <= p*p <= q*q)%Z by nia.
    split. apply Z.mul_nonneg_nonneg; lia.
    apply Z.le_trans with (q * (q*q))%Z. apply Z.mul_le_mono_nonneg_l; lia.
    apply Z.le_trans with (208063 * (208063*208063))%Z; [|discriminate].
    apply Z.mul_le_mono_nonneg; try lia; nia.
  - assert (0 <= (q-p)*(q-p) - 1)%Z by nia.
    assert (0 <= (q+p)*(q+p)-1)%Z by nia.
    assert (E : (((q-p)*(q-p) - 1) * ((q+p)*(q+p) - 1) = (q*q-p*p)*(q*q-p*p) - 2*(q*q+p*p) + 1)%Z) by ring.
    assert (0 <= q*q-p*p <= q*q)%Z by nia.
    assert ((q*q-p*p)*(q*q-p*p) <= (q*q)*(q*q))%Z by (apply Z.mul_le_mono_nonneg; lia).
    assert (q*q <= 1552*1552)%Z by (apply Z.mul_le_mono_nonneg; lia).
    assert ((q*q)*(q*q) <= (1552*1552)*(1552*1552))%Z by (apply Z.mul_le_mono_nonneg; lia).
    split. apply Z.mul_nonneg_nonneg; [lia|]. apply Z.mul_nonneg_nonneg; lia.
    apply Z.le_trans with (1552 * ((1552*1552)*(1552*1552)))%Z; [|discriminate].
    apply Z.mul_le_mono_nonneg; first [ lia | apply Z.mul_nonneg_nonneg; lia | rewrite E; nia ].
  - assert (0 <= (q-p)*(q-p) - 4)%Z by nia.
    assert (0 <= (q+p)*(q+p)-4)%Z by nia.
    assert (E : (((q-p)*(q-p) - 4) * ((q+p)*(q+p) - 4) = (q*q-p*p)*(q*q-p*p) - 8*(q*q+p*p) + 16)%Z) by ring.
    assert (0 <= q*q-p*p <= q*q)%Z by nia.
    assert (H3 : ((q*q-p*p)*(q*q-p*p) <= (q*q)*(q*q))%Z) by (apply Z.mul_le_mono_nonneg; lia).
    assert (q*q <= 190*190)%Z by (apply Z.mul_le_mono_nonneg; lia).
    assert ((q*q)*(q*q) <= (190*190)*(190*190))%Z by (apply Z.mul_le_mono_nonneg; lia).
    assert (0 <= ((q-p)*(q-p) - 4) * ((q+p)*(q+p) - 4))%Z by (apply Z.mul_nonneg_nonneg; lia).
    rewrite <- Z.mul_assoc.
    split. apply Z.mul_nonneg_nonneg; [lia|]. apply Z.mul_nonneg_nonneg; lia.
    apply Z.le_trans with (190 * ((190*190)*((190*190)*(190*190))))%Z; [|discriminate].
    apply Z.mul_le_mono_nonneg; first [ lia | apply Z.mul_nonneg_nonneg; lia |
    apply Z.mul_le_mono_nonneg; first [ lia | rewrite E; nia ] ].
Qed.

(** the entries of order four are divisible by 24 *)
Lemma cube_6 t : exists m, (t * (t * t - 1) = 6 * m)%Z.
Proof.
  pose proof (Z.div_mod t 6 ltac:(lia)) as E. pose proof (Z.mod_pos_bound t 6 ltac:(lia)) as B.
  set (k := (t / 6)%Z) in *. set (r := (t mod 6)%Z) in *. clearbody k r. subst t.
  assert (C : exists c, (r * (r * r - 1) = 6 * c)%Z).
  { assert (r = 0 \/ r = 1 \/ r = 2 \/ r = 3 \/ r = 4 \/ r = 5)%Z as [->|[->|[->|[->|[->| ->]]]]] by lia;
    [exists 0%Z|exists 0%Z|exists 1%Z|exists 4%Z|exists 10%Z|exists 20%Z]; reflexivity. }
  destruct C as [c C]. exists (36*k*k*k + 18*k*k*r + 3*k*r*r - k + c)%Z.
  replace ((6 * k + r) * ((6 * k + r) * (6 * k + r) - 1))%Z with (6 * (36*k*k*k + 18*k*k*r + 3*k*r*r - k) + r * (r*r - 1))%Z by ring.
  rewrite C. ring.
Qed.
Lemma iex_24 p q : ((p + q) mod 2 = 0)%Z -> exists m, iex 4 p q = (24 * m)%Z.
Proof.
  intros H. pose proof (Z.div_mod (p + q) 2 ltac:(lia)) as E. rewrite H in E. set (s := ((p + q) / 2)%Z) in *. clearbody s.
  assert (q = 2 * s - p)%Z by lia. subst q. clear H E. destruct (cube_6 s) as [m Hm].
  exists ((2 * s - p) * 16 * m * ((s - p) * ((s - p) * (s - p) - 1)))%Z. cbn [iex].
  replace ((2 * s - p) * (((2 * s - p) * (2 * s - p) - p * p) * ((2 * s - p - p) * (2 * s - p - p) - 4) * ((2 * s - p + p) * (2 * s - p + p) - 4)))%Z
    with ((2 * s - p) * 64 * (s * (s * s - 1)) * ((s - p) * ((s - p) * (s - p) - 1)))%Z by ring.
  rewrite Hm. ring.
Qed.

Lemma dmat_f64_exact bm n d : (1 <= d <= 4)%nat -> (Z.of_nat n <= dsafe bm d)%Z -> (Z.of_nat n <= exact_size d)%Z ->
  rrel (mr (fun a x => f64_fin a /\ f64_val a = x) n n) (dmat (A := f64) bm n d) (dmat (A := R) bm n d).
Proof.
  intros Hd Hs Hx. apply dmat_rel with (Q := fun a x => exists e, (-2 <= e <= 0)%Z /\ exa e a x).
  - exists 0%Z. split. lia. split. reflexivity. split. reflexivity. exists 0%Z. split. discriminate. ring.
  - intros a x (e & He & H). destruct (exa_half e a x ltac:(lia) H) as (F & V & _). auto.
  - intros a x (e & He & F & V & _). auto.
  - intros p q z Hp Hq Hz Hpar.
    rewrite (dent_ok bm d (Z.of_nat p) (Z.of_nat q)) in Hz by (auto; lia). injection Hz as <-.
    pose proof (iex_53 d (Z.of_nat p) (Z.of_nat q) Hd ltac:(lia) ltac:(lia) ltac:(lia)) as B.
    assert (d = 1 \/ d = 2 \/ d = 3 \/ d = 4)%nat as [->|[->|[->| ->]]] by lia; cbv iota.
    + exists 0%Z. split; [lia|]. apply exa_quot with (m := iex 1 (Z.of_nat p) (Z.of_nat q)); try lia. change (bpow radix2 0) with 1. field.
    + exists 0%Z. split; [lia|]. apply exa_quot with (m := iex 2 (Z.of_nat p) (Z.of_nat q)); try lia. change (bpow radix2 0) with 1. field.
    + exists (-2)%Z. split; [lia|]. apply exa_quot with (m := iex 3 (Z.of_nat p) (Z.of_nat q)); try lia. change (bpow radix2 (-2)) with (/ 4). field.
    + exists 0%Z. split; [lia|]. destruct (iex_24 (Z.of_nat p) (Z.of_nat q)) as [m Hm].
      { rewrite <- Nat2Z.inj_add. change 2%Z with (Z.of_nat 2). rewrite <- Nat2Z.inj_mod, Hpar. reflexivity. }
      apply exa_quot with (m := m); try lia. rewrite Hm, mult_IZR. change (bpow radix2 0) with 1. field.
Qed.
