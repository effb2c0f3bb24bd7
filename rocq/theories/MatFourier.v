(** The Fourier matrices in f64. *)
From Coq Require Import List Arith Lia Bool ZArith Reals Lra.
From Flocq Require Import Core BinarySingleNaN.
From Verif Require Import Base Num Linalg LinalgProofs Stencils Cheb Fourier FourierF64 Rounding MatRel MatF64 MatCheb MatPinv MatSten.
Import ListNotations.
Local Open Scope R_scope.

(** the Gaussian integer z + w i, exactly, in both arithmetics *)
Definition cexi (a : cplx f64) (x : cplx R) (z w : Z) : Prop := exi (fst a) (fst x) z /\ exi (snd a) (snd x) w.
(** the wavenumber i k, |k| <= K *)
Definition wnrel (K : Z) (a : cplx f64) (x : cplx R) : Prop := exists k, (Z.abs k <= K)%Z /\ cexi a x 0 k.

Lemma cmul_exi a x z w b y z' w' : cexi a x z w -> cexi b y z' w' ->
  ((Z.abs z + Z.abs w) * (Z.abs z' + Z.abs w') <= 2 ^ 53)%Z ->
  cexi (cmul a b) (cmul x y) (z * z' - w * w') (z * w' + w * z').
Proof.
  intros [A1 A2] [B1 B2] H.
  assert (Z.abs (z * z') + Z.abs (w * w') + Z.abs (z * w') + Z.abs (w * z') <= 2 ^ 53)%Z by (rewrite !Z.abs_mul; nia).
  split; cbn [cmul fst snd].
  - apply exi_sub; [apply exi_mul|apply exi_mul|]; auto; lia.
  - apply exi_add; [apply exi_mul|apply exi_mul|]; auto; lia.
Qed.

Lemma cpow_exi K a x d : wnrel K a x -> (1 <= K)%Z -> (K ^ Z.of_nat d <= 2 ^ 53)%Z ->
  exists z w, cexi (cpow a d) (cpow x d) z w /\ (Z.abs z + Z.abs w <= K ^ Z.of_nat d)%Z /\ (z = 0 \/ w = 0)%Z.
Proof.
  intros (k & Hk & Ha) HK. induction d as [|d IH]; intros Hd.
  - exists 1%Z, 0%Z. split. split. exact exi_one. exact (exi_int 0 ltac:(discriminate)). cbn. lia.
  - assert (E : (K ^ Z.of_nat (S d) = K * K ^ Z.of_nat d)%Z) by (rewrite Nat2Z.inj_succ; apply Z.pow_succ_r; lia).
    rewrite E in Hd. assert (0 < K ^ Z.of_nat d)%Z by (apply Z.pow_pos_nonneg; lia).
    destruct IH as (z & w & H1 & H2 & H3). nia.
    exists (0 * z - k * w)%Z, (0 * w + k * z)%Z. split; [|split].
    + cbn [cpow]. apply cmul_exi; auto. change (Z.abs 0) with 0%Z. nia.
    + rewrite E. replace (Z.abs (0 * z - k * w) + Z.abs (0 * w + k * z))%Z with (Z.abs k * (Z.abs w + Z.abs z))%Z. nia.
      replace (0 * z - k * w)%Z with (- (k * w))%Z by ring. replace (0 * w + k * z)%Z with (k * z)%Z by ring. rewrite Z.abs_opp, !Z.abs_mul. ring.
    + destruct H3 as [-> | ->]; [right|left]; ring.
Qed.

(** equal to the exact value, in both parts *)
Definition cexact (a : cplx f64) (x : cplx R) : Prop :=
  (f64_fin (fst a) /\ f64_val (fst a) = fst x) /\ (f64_fin (snd a) /\ f64_val (snd a) = snd x).
Lemma cexi_exact a x z w : cexi a x z w -> cexact a x.
Proof. intros [(F & V & X) (F' & V' & X')]. split; split; congruence. Qed.

(** ** Filling a diagonal *)
Lemma combine_rel {A B} (Q : A -> B -> Prop) (s : nat) n l l' : Forall2 Q l l' ->
  Forall2 (fun p q => fst p = fst q /\ (s <= fst q)%nat /\ Q (snd p) (snd q)) (combine (seq s n) l) (combine (seq s n) l').
Proof.
  intros H. revert s n. induction H; intros s [|n]; cbn; constructor; auto.
  specialize (IHForall2 (S s) n). clear - IHForall2. induction IHForall2; constructor; auto. destruct H as (E & L & HQ). split; auto. split; auto. lia.
Qed.
Lemma rrel_for_each2 {I I' S S'} (P : I -> I' -> Prop) (Q : S -> S' -> Prop) (l : list I) (l' : list I') f f' s s' :
  Forall2 P l l' -> Q s s' -> (forall i i' s s', P i i' -> Q s s' -> rrel Q (f i s) (f' i' s')) ->
  rrel Q (for_each l f s) (for_each l' f' s').
Proof.
  intros H. revert s s'. induction H; intros s s' Hs F; cbn [for_each]; auto.
  eapply rrel_bind. apply F; eauto. intros. apply IHForall2; auto.
Qed.
Lemma diag_zip_rel {B B'} {dB : Dflt B} {dB' : Dflt B'} (W : cplx f64 -> cplx R -> Prop) (Q : B -> B' -> Prop) m f f' M D wn wn' :
  Forall2 W wn wn' -> mr Q m m M D -> (forall a x, W a x -> rrel Q (f a) (f' x)) ->
  rrel (mr Q m m) (diag_zip f M wn) (diag_zip f' D wn').
Proof.
  intros Hw HM Hf. unfold diag_zip. pose proof HM as [HM' _]. rewrite (Forall2_length HM').
  eapply rrel_for_each2. apply combine_rel, Hw. exact HM. cbv beta. intros [i a] [i' x] M' D' (E & _ & Hax) HM''. cbn [fst snd] in *. subst i'.
  eapply rrel_bind. apply Hf; eauto. intros. apply mr_mwr; auto.
Qed.

Definition wn_list K := Forall2 (wnrel K).
Lemma r2c_wn n : (Z.of_nat n <= 2 ^ 53)%Z -> rrel (wn_list (Z.of_nat (n / 2))) (r2c_wavenumber (A := f64) n) (r2c_wavenumber (A := R) n).
Proof.
  intros Hn. unfold r2c_wavenumber. apply rrel_Ok. apply map_rel_in. intros i Hi. apply in_seq in Hi.
  assert (n / 2 <= n)%nat by (apply Nat.div_le_upper_bound; lia).
  exists (Z.of_nat i). split. lia. split. exact (exi_int 0 ltac:(discriminate)). apply exi_int. lia.
Qed.
Lemma c2c_wn n : (Z.of_nat n <= 2 ^ 53)%Z -> rrel (wn_list (Z.of_nat (n / 2))) (c2c_wavenumber (A := f64) n) (c2c_wavenumber (A := R) n).
Proof.
  intros Hn. unfold c2c_wavenumber. apply rrel_bind_same. intros n1' Hn1. cbv zeta.
  assert (N1 : (n1' = n - 1 /\ 1 <= n)%nat) by (unfold usub in Hn1; destruct (Nat.leb_spec 1 n); try discriminate; injection Hn1 as <-; lia).
  assert (Hh : (n / 2 <= n)%nat) by (apply Nat.div_le_upper_bound; lia).
  assert (H2 : (n1' / 2 <= n / 2)%nat) by (apply Nat.div_le_mono; lia).
  assert (E0 : exi n0 n0 0) by exact (exi_int 0 ltac:(discriminate)).
  eapply rrel_bind with (Q := wn_list (Z.of_nat (n / 2))).
  - apply rrel_for_each.
    + apply repeat_rel. exists 0%Z. split. lia. split; exact E0.
    + intros i s s' Hi Hs. apply in_seq in Hi. eapply rrel_bind. apply rrel_rd, Hs. cbv beta. intros a x (k & Hk & Ha & Ha').
      apply rrel_wr; auto. exists (Z.of_nat i). cbn [fst snd]. split. lia. split. exact Ha. apply exi_int. lia.
  - intros l l' Hl. apply rrel_for_each; auto.
    intros i s s' Hi Hs. apply in_seq in Hi. eapply rrel_bind. apply rrel_rd, Hs. cbv beta. intros a x (k & Hk & Ha & Ha').
    apply rrel_wr; auto. exists (- Z.of_nat (i + 1))%Z. cbn [fst snd]. split. lia. split. exact Ha. apply exi_int. lia.
Qed.

(** ** diffmat *)
Lemma f_diffmat_rel K m wn wn' d (Q : cplx f64 -> cplx R -> Prop) : rrel (wn_list K) wn wn' -> Q c0 c0 ->
  (forall a x, wnrel K a x -> Q (cpow a d) (cpow x d)) ->
  rrel (mr Q m m) (f_diffmat m wn d) (f_diffmat m wn' d).
Proof.
  intros Hw Q0 HQ. unfold f_diffmat. apply rrel_bind_same. intros _ _. eapply rrel_bind. exact Hw. cbv beta. intros l l' Hl.
  eapply diag_zip_rel. exact Hl. apply mr_zeros; auto. intros a x Ha. unfold powi. apply rrel_bind_same. intros _ _. apply rrel_Ok. auto.
Qed.
Lemma c0_exact : cexact c0 c0.
Proof. apply (cexi_exact _ _ 0 0). split; exact (exi_int 0 ltac:(discriminate)). Qed.

Lemma f_diffmat_exact K m wn wn' d : rrel (wn_list K) wn wn' -> (1 <= K)%Z -> (K ^ Z.of_nat d <= 2 ^ 53)%Z ->
  rrel (mr cexact m m) (f_diffmat m wn d) (f_diffmat m wn' d).
Proof.
  intros Hw HK Hd. eapply f_diffmat_rel; eauto. apply c0_exact. intros a x Ha.
  destruct (cpow_exi K a x d Ha HK Hd) as (z & w & H & _). eapply cexi_exact; eauto.
Qed.

(** ** laplacian *)
(** squares of integers up to 2^53, negated or not, are correctly rounded *)
Lemma bound106 z : (Z.abs z <= 2 ^ 106)%Z -> Rabs (rnd64 (IZR z)) < bpow radix2 1024 /\ Rabs (rnd64 (IZR z) - IZR z) <= u64 * Rabs (IZR z).
Proof.
  intros Hz. assert (E : Rabs (rnd64 (IZR z) - IZR z) <= u64 * Rabs (IZR z)).
  { destruct (Z.eq_dec z 0) as [->|Nz]. rewrite rnd64_0, Rminus_0_r, Rabs_R0. lra.
    apply rnd64_rel. apply Rle_trans with 1. change 1 with (bpow radix2 0). apply bpow_le. lia.
    rewrite <- abs_IZR. apply IZR_le. lia. }
  split; auto.
  assert (Hz' : Rabs (IZR z) <= bpow radix2 106).
  { rewrite <- abs_IZR. change (bpow radix2 106) with (IZR (2 ^ 106)). apply IZR_le. exact Hz. }
  pose proof u64_small.
  assert (Rabs (rnd64 (IZR z)) <= 2 * Rabs (IZR z)).
  { replace (rnd64 (IZR z)) with ((rnd64 (IZR z) - IZR z) + IZR z) by ring.
    eapply Rle_trans. apply Rabs_triang. pose proof (Rabs_pos (IZR z)). nra. }
  apply Rle_lt_trans with (bpow radix2 107).
  replace (bpow radix2 107) with (2 * bpow radix2 106). lra. change 2 with (bpow radix2 1). rewrite <- bpow_plus. reflexivity.
  apply bpow_lt. lia.
Qed.
Lemma mul_crnd a x z b y w : exi a x z -> exi b y w -> (Z.abs z <= 2 ^ 53)%Z -> (Z.abs w <= 2 ^ 53)%Z ->
  f64_fin (nmul a b) /\ f64_val (nmul a b) = rnd64 (IZR (z * w)) /\ nmul x y = IZR (z * w).
Proof.
  intros (F & V & X) (F' & V' & X') Hz Hw. pose proof f64_float_arith as FA.
  assert (P : f64_val a * f64_val b = IZR (z * w)) by (rewrite V, V', mult_IZR; auto).
  destruct (bound106 (z * w)) as [B _]. rewrite Z.abs_mul. change (2 ^ 106)%Z with (2 ^ 53 * 2 ^ 53)%Z. nia.
  assert (Fr : f64_fin (nmul a b)) by (apply (fa_mulF _ _ _ _ _ _ _ _ FA); auto; rewrite P; exact B).
  destruct (fa_mul _ _ _ _ _ _ _ _ FA _ _ Fr) as (_ & _ & W). split; auto. split. rewrite W, P; auto. subst. rewrite mult_IZR. reflexivity.
Qed.
Lemma lap_crnd K a x : wnrel K a x -> (K <= 2 ^ 53)%Z ->
  exists k, (Z.abs k <= K)%Z /\ x = (0, IZR k) /\
    f64_fin (nmul (nopp (snd a)) (snd a)) /\ f64_val (nmul (nopp (snd a)) (snd a)) = rnd64 (IZR (- k * k)) /\ nmul (nopp (snd x)) (snd x) = IZR (- k * k).
Proof.
  intros (k & Hk & A0 & A1) HK. exists k. split; auto. split. destruct A0 as (_ & _ & E0), A1 as (_ & _ & E1). destruct x; cbn [fst snd] in *. subst. reflexivity.
  apply (mul_crnd _ _ (- k)%Z _ _ k); auto. apply exi_opp; auto. lia. lia.
Qed.

(** the correctly rounded value, and an integer of at most 106 bits *)
Definition irnd (a : f64) (x : R) : Prop := exists z, (Z.abs z <= 2 ^ 106)%Z /\ f64_fin a /\ f64_val a = rnd64 (IZR z) /\ x = IZR z.
Lemma irnd_crnd a x : irnd a x -> f64_fin a /\ f64_val a = rnd64 x.
Proof. intros (z & _ & F & V & ->). split; auto. Qed.
Lemma irnd_0 : irnd n0 n0.
Proof. exists 0%Z. split. discriminate. split. reflexivity. split. cbn. rewrite rnd64_0. reflexivity. reflexivity. Qed.
Lemma moderate_int z : (Z.abs z <= 2 ^ 106)%Z -> moderate (IZR z).
Proof.
  intros Hz. destruct (Z.eq_dec z 0) as [->|Nz]. left; reflexivity. right. rewrite <- abs_IZR. split.
  apply Rle_trans with 1. change 1 with (bpow radix2 0). apply bpow_le; lia. apply IZR_le. lia.
  apply Rle_trans with (IZR (2 ^ 106)). apply IZR_le; auto. change (IZR (2 ^ 106)) with (bpow radix2 106). apply bpow_le. lia.
Qed.
Lemma irnd_ent a x : irnd a x -> ent a x.
Proof.
  intros (z & Hz & F & V & ->). destruct (bound106 z Hz) as [_ B]. split; auto. split. rewrite V. pose proof u64_small. pose proof (Rabs_pos (IZR z)). nra.
  apply moderate_int; auto.
Qed.
Lemma f_laplacian_rel K m wn wn' : rrel (wn_list K) wn wn' -> (K <= 2 ^ 53)%Z ->
  rrel (mr irnd m m) (f_laplacian m wn) (f_laplacian m wn').
Proof.
  intros Hw HK. unfold f_laplacian. eapply rrel_bind. exact Hw. cbv beta. intros l l' Hl.
  eapply diag_zip_rel. exact Hl. apply mr_zeros. exact irnd_0. intros a x Ha. apply rrel_Ok.
  destruct (lap_crnd K a x Ha HK) as (k & Hk & _ & F & V & E). exists (- k * k)%Z. split; auto. rewrite Z.abs_mul, Z.abs_opp. change (2 ^ 106)%Z with (2 ^ 53 * 2 ^ 53)%Z. nia.
Qed.

(** ** the pseudo-inverses *)
Lemma diag1_map_any {B} {db : Dflt B} m D (inv : B -> B) : (1 <= m)%nat -> mat_dims D m m ->
  wp (diag1_map inv m D) (fun P => mat_dims P m m /\ forall i j, (i < m)%nat -> (j < m)%nat ->
    P.[i].[j] = if ((i =? j) && negb (i =? 0))%nat then inv D.[i].[j] else D.[i].[j]).
Proof.
  intros Hm HD. unfold diag1_map. replace (1 <=? m)%nat with true by (symmetry; apply Nat.leb_le; auto). cbn [assertb bind].
  apply (wp_for_each_range 1 m _ (fun t P => mat_dims P m m /\ forall i j, (i < m)%nat -> (j < m)%nat ->
    P.[i].[j] = if ((i =? j) && negb (i =? 0) && (i <? t))%nat then inv D.[i].[j] else D.[i].[j])); auto.
  - split; auto. intros. destruct (Nat.eqb_spec i j); auto. destruct (Nat.eqb_spec i 0), (Nat.ltb_spec i 1); auto; lia.
  - intros t P Ht [HP EP]. apply wp_bind. apply (wp_mrd _ m m); auto; try lia.
    apply (wp_mwr _ m m); auto; try lia. intros P' HP' E1 E2. split; auto.
    intros i j Hi Hj. destruct (Nat.eqb_spec i j) as [<-|].
    + destruct (Nat.eq_dec i t) as [->|].
      * rewrite E1, EP by auto. rewrite Nat.eqb_refl. cbn [andb].
        destruct (Nat.eqb_spec t 0), (Nat.ltb_spec t t), (Nat.ltb_spec t (t + 1)); try lia. auto.
      * rewrite E2 by lia. rewrite EP by auto. rewrite Nat.eqb_refl. cbn [andb].
        destruct (Nat.eqb_spec i 0), (Nat.ltb_spec i t), (Nat.ltb_spec i (t + 1)); try lia; auto.
    + rewrite E2 by lia. rewrite EP by auto. destruct (Nat.eqb_spec i j); auto. lia.
  - intros P [HP EP]. split; auto. intros. rewrite EP by auto. destruct (Nat.eqb_spec i j); auto.
    destruct (Nat.ltb_spec i m); [|lia]. rewrite andb_true_r. auto.
Qed.

(** the reciprocal of a rounded integer *)
Lemma recip_ent a x : irnd a x -> x <> 0 -> ent (ndiv n1 a) (1 / x).
Proof.
  intros (z & Hz & F & V & ->) Hx. destruct (bound106 z Hz) as [_ B]. destruct (fa_1 _ _ _ _ _ _ _ _ f64_float_arith) as [F1 V1].
  apply ent_quot; auto. left. split; auto. rewrite V. exact B.
  right. assert (z <> 0)%Z by (intros ->; apply Hx; reflexivity). unfold Rdiv. rewrite Rmult_1_l, Rabs_inv, <- abs_IZR.
  assert (1 <= IZR (Z.abs z) <= IZR (2 ^ 106)) by (split; apply IZR_le; lia). split.
  - apply Rle_trans with (/ IZR (2 ^ 106)). change (/ IZR (2 ^ 106)) with (bpow radix2 (-106)). apply bpow_le; lia. apply Rinv_le; lra.
  - apply Rle_trans with 1. rewrite <- Rinv_1. apply Rinv_le; lra. change 1 with (bpow radix2 0). apply bpow_le; lia.
Qed.

(** the reciprocal of an integer multiple of a unit: one of the parts is 0 *)
Definition cent (a : cplx f64) (x : cplx R) : Prop := ent (fst a) (fst x) /\ ent (snd a) (snd x).
Lemma crecip_ent a x z w : cexi a x z w -> (z = 0 \/ w = 0)%Z -> (Z.abs z + Z.abs w <= 2 ^ 53)%Z -> x <> c0 ->
  cent (cdiv c1 a) (cdiv c1 x).
Proof.
  intros [A B] H0 HS Hx. pose proof f64_float_arith as FA.
  assert (E0 : exi n0 n0 0) by exact (exi_int 0 ltac:(discriminate)). pose proof exi_one as E1.
  assert (Nz : (z <> 0 \/ w <> 0)%Z).
  { destruct (Z.eq_dec z 0), (Z.eq_dec w 0); auto. exfalso. apply Hx. destruct A as (_ & _ & A), B as (_ & _ & B), x. cbn [fst snd] in *. subst. reflexivity. }
  assert (Lz : (Z.abs z <= 2 ^ 53)%Z) by lia. assert (Lw : (Z.abs w <= 2 ^ 53)%Z) by lia.
  destruct (mul_crnd _ _ _ _ _ _ A A Lz Lz) as (Fz & Vz & Xz). destruct (mul_crnd _ _ _ _ _ _ B B Lw Lw) as (Fw & Vw & Xw).
  set (q := (z * z + w * w)%Z).
  assert (Lq : (Z.abs q <= 2 ^ 106)%Z). { unfold q. change (2 ^ 106)%Z with (2 ^ 53 * 2 ^ 53)%Z. destruct H0 as [-> | ->]; nia. }
  assert (Nq : q <> 0%Z) by (unfold q; nia).
  destruct (bound106 q Lq) as [Bq Eq].
  assert (S : f64_val (nmul (fst a) (fst a)) + f64_val (nmul (snd a) (snd a)) = rnd64 (IZR q)).
  { rewrite Vz, Vw. unfold q. destruct H0 as [-> | ->]; [rewrite Z.mul_0_l, Z.add_0_l|rewrite (Z.mul_0_l 0), Z.add_0_r]; rewrite rnd64_0; ring. }
  assert (SS : rnd64 (rnd64 (IZR q)) = rnd64 (IZR q)).
  { destruct H0 as [H0|H0].
    - replace q with (w * w)%Z by (unfold q; rewrite H0; ring). rewrite <- Vw. apply (fa_float _ _ _ _ _ _ _ _ FA); auto.
    - replace q with (z * z)%Z by (unfold q; rewrite H0; ring). rewrite <- Vz. apply (fa_float _ _ _ _ _ _ _ _ FA); auto. }
  assert (Fd : f64_fin (nadd (nmul (fst a) (fst a)) (nmul (snd a) (snd a)))).
  { apply (fa_addF _ _ _ _ _ _ _ _ FA); auto. rewrite S, SS. exact Bq. }
  assert (Vd : f64_val (nadd (nmul (fst a) (fst a)) (nmul (snd a) (snd a))) = rnd64 (IZR q)).
  { destruct (fa_add _ _ _ _ _ _ _ _ FA _ _ Fd) as (_ & _ & W). rewrite W, S. exact SS. }
  assert (Xd : nadd (nmul (fst x) (fst x)) (nmul (snd x) (snd x)) = IZR q) by (rewrite Xz, Xw; unfold q; rewrite plus_IZR; reflexivity).
  assert (G : forall b y t, exi b y t -> (t = 0 \/ Z.abs t <= 2 ^ 53)%Z -> ent (ndiv b (nadd (nmul (fst a) (fst a)) (nmul (snd a) (snd a)))) (ndiv y (nadd (nmul (fst x) (fst x)) (nmul (snd x) (snd x))))).
  { intros b y t (Fb & Vb & Xb) Ht. change (ndiv y (nadd (nmul (fst x) (fst x)) (nmul (snd x) (snd x)))) with (y / (nadd (nmul (fst x) (fst x)) (nmul (snd x) (snd x)))).
    apply ent_quot; auto. rewrite Xd. apply not_0_IZR; auto.
    left. split. congruence. rewrite Vd, Xd. exact Eq.
    rewrite Xd, Xb. destruct (Z.eq_dec t 0) as [->|Nt]. left. unfold Rdiv. ring. right.
    rewrite Rabs_div by (apply not_0_IZR; auto). rewrite <- !abs_IZR.
    assert (1 <= IZR (Z.abs t) <= IZR (2 ^ 53)) by (split; apply IZR_le; lia).
    assert (1 <= IZR (Z.abs q) <= IZR (2 ^ 106)) by (split; apply IZR_le; lia).
    split.
    - apply Rle_trans with (/ IZR (2 ^ 106)). change (/ IZR (2 ^ 106)) with (bpow radix2 (-106)). apply bpow_le; lia.
      unfold Rdiv. rewrite <- (Rmult_1_l (/ IZR (2 ^ 106))). apply Rmult_le_compat; try lra.
      all: first [apply Rinv_le; lra | apply Rlt_le, Rinv_0_lt_compat; lra].
    - apply Rle_trans with (IZR (2 ^ 53)). 2: change (IZR (2 ^ 53)) with (bpow radix2 53); apply bpow_le; lia.
      unfold Rdiv. rewrite <- (Rmult_1_r (IZR (2 ^ 53))). apply Rmult_le_compat; try lra.
      apply Rlt_le, Rinv_0_lt_compat; lra. rewrite <- Rinv_1. apply Rinv_le; lra. }
  split; unfold cdiv; cbv zeta; cbn [fst snd c1].
  - apply (G _ _ (1 * z + 0 * w)%Z); [|lia]. apply exi_add; [apply exi_mul|apply exi_mul|]; auto; lia.
  - apply (G _ _ (0 * z - 1 * w)%Z); [|lia]. apply exi_sub; [apply exi_mul|apply exi_mul|]; auto; lia.
Qed.

(** an integer multiple of 1, i, -1 or -i *)
Definition unitint (a : cplx f64) (x : cplx R) : Prop :=
  exists z w, cexi a x z w /\ (z = 0 \/ w = 0)%Z /\ (Z.abs z + Z.abs w <= 2 ^ 53)%Z.
Lemma unitint_0 : unitint c0 c0.
Proof. exists 0%Z, 0%Z. split. split; exact (exi_int 0 ltac:(discriminate)). split; auto. discriminate. Qed.
Lemma unitint_exact a x : unitint a x -> cexact a x.
Proof. intros (z & w & H & _). eapply cexi_exact; eauto. Qed.
Lemma unitint_cent a x : unitint a x -> cent a x.
Proof.
  intros (z & w & [(F & V & X) (F' & V' & X')] & _ & H).
  assert (G : forall b y t, f64_fin b -> f64_val b = IZR t -> y = IZR t -> (Z.abs t <= 2 ^ 53)%Z -> ent b y).
  { intros b y t Fb Vb Xb Ht. split; auto. split. rewrite Vb, Xb, Rminus_diag_eq by auto. rewrite Rabs_R0. pose proof (Rabs_pos (IZR t)). pose proof u64_small. nra.
    rewrite Xb. apply moderate_int. change (2 ^ 106)%Z with (2 ^ 53 * 2 ^ 53)%Z. nia. }
  split; [apply (G _ _ z)|apply (G _ _ w)]; auto; lia.
Qed.
Lemma f_diffmat_unitint K m wn wn' d : rrel (wn_list K) wn wn' -> (1 <= K)%Z -> (K ^ Z.of_nat d <= 2 ^ 53)%Z ->
  rrel (mr unitint m m) (f_diffmat m wn d) (f_diffmat m wn' d).
Proof.
  intros Hw HK Hd. eapply f_diffmat_rel; eauto. apply unitint_0. intros a x Ha.
  destruct (cpow_exi K a x d Ha HK Hd) as (z & w & H & H1 & H2). exists z, w. split; auto. split; auto. lia.
Qed.
