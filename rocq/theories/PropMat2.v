(** C64: the matrices of the Fourier bases in f64. *)
From Coq Require Import List Arith Lia Bool ZArith Reals Lra.
From Flocq Require Import Core BinarySingleNaN.
From Verif Require Import Base Num Linalg LinalgProofs Cheb Compo Fourier FourierFacts FourierOps FourierProofs FourierSpec FourierF64 Rounding MatRel MatF64 MatCheb MatPinv MatSten MatFourier PropMat PropFourier.
Import ListNotations.
Local Open Scope R_scope.

(** both parts of a complex number *)
Definition parts (P : f64 -> R -> Prop) (a : cplx f64) (x : cplx R) : Prop := P (fst a) (fst x) /\ P (snd a) (snd x).
(** the f64 holds exactly the real number *)
Definition holds (a : f64) (x : R) : Prop := f64_fin a /\ f64_val a = x.
(** the f64 is the real number, correctly rounded *)
Definition rounds (a : f64) (x : R) : Prop := f64_fin a /\ f64_val a = ieee_rnd 53 1024 x.
(** the f64 is within e of the real number, relatively *)
Definition within (e : R) (a : f64) (x : R) : Prop := f64_fin a /\ Rabs (f64_val a - x) <= e * Rabs x.
(** two r x c matrices, compared entry by entry *)
Definition entrywise {A B} {dA : Dflt A} {dB : Dflt B} (P : A -> B -> Prop) (r c : nat) (M : list (list A)) (D : list (list B)) : Prop :=
  mat_dims M r c /\ mat_dims D r c /\ forall i j, (i < r)%nat -> (j < c)%nat -> P M.[i].[j] D.[i].[j].
(** both runs return, and the results are related *)
Definition both {A B} (P : A -> B -> Prop) (x : res A) (y : res B) : Prop := wp x (fun a => wp y (fun b => P a b)).

Lemma both_rel {A B} {dA : Dflt A} {dB : Dflt B} (Q P : A -> B -> Prop) m x y : rrel (mr Q m m) x y -> wp y (fun _ => True) ->
  (forall a b, Q a b -> P a b) -> both (entrywise P m m) x y.
Proof.
  intros H W F. apply rrel_entries in H. unfold both. destruct x as [M| |], y as [D| |]; cbn [wp] in *; try contradiction.
  destruct H as (H1 & H2 & H3). split; [|split]; auto.
Qed.

Section Gen.
Variables (K : Z) (m : nat) (w64 : res (list (cplx f64))) (wR : res (list CR)) (kk : nat -> R).
Hypothesis Hm : (1 <= m)%nat.
Hypothesis Hw : rrel (wn_list K) w64 wR.
Hypothesis Hv : wp wR (fun w => length w = m /\ forall k, (k < m)%nat -> w.[k] = iR (kk k)).
Hypothesis Hk : forall k, (1 <= k < m)%nat -> kk k <> 0.

Lemma gen_diffmat d : (1 <= K)%Z -> (K ^ Z.of_nat d <= 2 ^ 53)%Z -> (1 <= d)%nat -> (Z.of_nat d < 2 ^ 31)%Z ->
  both (entrywise (parts holds) m m) (f_diffmat m w64 d) (f_diffmat m wR d).
Proof.
  intros HK Hd D1 D2. eapply both_rel. apply (f_diffmat_unitint K); eauto.
  eapply wp_mono. apply (f_diffmat_val m wR kk d); auto. auto. intros a b H. apply unitint_exact in H. exact H.
Qed.
Lemma gen_laplacian : (K <= 2 ^ 53)%Z -> both (entrywise rounds m m) (f_laplacian m w64) (f_laplacian m wR).
Proof.
  intros HK. eapply both_rel. apply (f_laplacian_rel K); auto. eapply wp_mono. apply (f_laplacian_val m wR kk); auto. auto.
  intros a b H. apply irnd_crnd in H. exact H.
Qed.
Lemma eye_rel {A B} {NA : Num A} {NB : Num B} (P : A -> B -> Prop) : P n1 n1 -> P n0 n0 ->
  entrywise P (m - 1) m (skipn 1 (eye (A := A) m)) (skipn 1 (eye (A := B) m)).
Proof.
  intros P1 P0.
  assert (X : forall (A : Type) (N : Num A) i j, (i < m - 1)%nat -> (j < m)%nat -> (skipn 1 (eye (A := A) m)).[i].[j] = if (1 + i =? j)%nat then n1 else n0).
  { intros C N i j Hi Hj. rewrite at_skipn. unfold eye. rewrite at_map_seq by lia. rewrite at_map_seq by lia. reflexivity. }
  assert (Y : forall (A : Type) (N : Num A), mat_dims (skipn 1 (eye (A := A) m)) (m - 1) m).
  { intros C N. split. rewrite skipn_length. unfold eye. rewrite map_length, seq_length. reflexivity.
    intros i Hi. rewrite at_skipn. unfold eye. rewrite at_map_seq by lia. rewrite map_length, seq_length. reflexivity. }
  split. apply Y. split. apply Y. intros i j Hi Hj. rewrite !X by auto. destruct (_ =? _)%nat; auto.
Qed.
Lemma ent_within a x : ent a x -> within (3 * bpow radix2 (-53)) a x.
Proof. intros (F & E & _). split; auto. Qed.
Lemma gen_laplacian_pinv : (K <= 2 ^ 53)%Z ->
  both (fun p q => entrywise (within (3 * bpow radix2 (-53))) m m (fst p) (fst q) /\ entrywise holds (m - 1) m (snd p) (snd q))
    (f_laplacian_pinv m w64) (f_laplacian_pinv m wR).
Proof.
  intros HK. pose proof (rrel_entries _ _ _ _ _ (f_laplacian_rel K m _ _ Hw HK)) as H.
  pose proof (f_laplacian_val m wR kk Hv) as W. unfold both, f_laplacian_pinv.
  destruct (f_laplacian m w64) as [L| |], (f_laplacian m wR) as [D| |]; cbn [wp] in *; try contradiction. destruct H as (H1 & H2 & H3). cbn [bind].
  pose proof (diag1_map_any m L (ndiv n1) Hm H1) as R1. pose proof (diag1_map_any m D (ndiv n1) Hm H2) as R2.
  apply wp_Ok in R1 as (P & -> & P1 & P2). apply wp_Ok in R2 as (P' & -> & P1' & P2'). cbn [bind wp fst snd]. split.
  - split. exact P1. split. exact P1'. intros i j Hi Hj. apply ent_within. rewrite P2, P2' by auto.
    destruct (Nat.eqb_spec i j) as [<-|]; cbn [andb]. 2: apply irnd_ent; auto.
    destruct (Nat.eqb_spec i 0) as [E|E]; cbn [negb]. apply irnd_ent; auto.
    apply recip_ent; auto. destruct W as [_ W]. rewrite W by auto. rewrite Nat.eqb_refl.
    assert (kk i <> 0) by (apply Hk; lia). nra.
  - apply eye_rel. destruct (fa_1 _ _ _ _ _ _ _ _ f64_float_arith); split; auto. destruct (fa_0 _ _ _ _ _ _ _ _ f64_float_arith); split; auto.
Qed.
Lemma gen_diffmat_pinv d : (1 <= K)%Z -> (K ^ Z.of_nat d <= 2 ^ 53)%Z -> (1 <= d)%nat -> (Z.of_nat d < 2 ^ 31)%Z ->
  both (fun p q => entrywise (parts (within (3 * bpow radix2 (-53)))) m m (fst p) (fst q) /\ entrywise (parts holds) (m - 1) m (snd p) (snd q))
    (f_diffmat_pinv m w64 d) (f_diffmat_pinv m wR d).
Proof.
  intros HK Hd D1 D2. pose proof (rrel_entries _ _ _ _ _ (f_diffmat_unitint K m _ _ d Hw HK Hd)) as H.
  pose proof (f_diffmat_val m wR kk d Hv D1 D2) as W. unfold both, f_diffmat_pinv.
  rewrite !assert_ok by (apply Nat.ltb_lt; lia). cbv zeta.
  destruct (f_diffmat m w64 d) as [L| |], (f_diffmat m wR d) as [D| |]; cbn [wp] in *; try contradiction. destruct H as (H1 & H2 & H3). cbn [bind].
  pose proof (diag1_map_any m L (cdiv c1) Hm H1) as R1. pose proof (diag1_map_any m D (cdiv c1) Hm H2) as R2.
  apply wp_Ok in R1 as (P & -> & P1 & P2). apply wp_Ok in R2 as (P' & -> & P1' & P2'). cbn [bind wp fst snd]. split.
  - split. exact P1. split. exact P1'. intros i j Hi Hj. cut (cent P.[i].[j] P'.[i].[j]). { intros [C1 C2]. split; apply ent_within; auto. }
    rewrite P2, P2' by auto.
    destruct (Nat.eqb_spec i j) as [<-|]; cbn [andb]. 2: apply unitint_cent; auto.
    destruct (Nat.eqb_spec i 0) as [E|E]; cbn [negb]. apply unitint_cent; auto.
    destruct (H3 i i Hi Hi) as (z & w & X1 & X2 & X3). eapply crecip_ent; eauto.
    destruct W as [_ W]. rewrite W by auto. rewrite Nat.eqb_refl. apply cpow_nz, Hk. lia.
  - apply (eye_rel (NA := num_cplx) (NB := num_cplx)).
    + split. destruct (fa_1 _ _ _ _ _ _ _ _ f64_float_arith); split; auto. destruct (fa_0 _ _ _ _ _ _ _ _ f64_float_arith); split; auto.
    + split; destruct (fa_0 _ _ _ _ _ _ _ _ f64_float_arith); split; auto.
Qed.
End Gen.

Lemma wn_mono {K K'} w w' : (K <= K')%Z -> rrel (wn_list K) w w' -> rrel (wn_list K') w w'.
Proof.
  intros H. destruct w, w'; cbn; auto. induction 1; constructor; auto. destruct H0 as (k & Hk & Hk2). exists k. split; auto. lia.
Qed.

(** diffmat of order d: no entry is rounded as long as the largest power of a
    wavenumber, max(1, n/2)^d, is below 2^53 *)
Theorem C64_fourier_diffmat_f64 : forall n d, (Z.of_nat n <= 2 ^ 53)%Z -> (1 <= d)%nat -> (Z.of_nat d < 2 ^ 31)%Z ->
  (Z.max 1 (Z.of_nat n / 2) ^ Z.of_nat d <= 2 ^ 53)%Z ->
  (forall f, r2c_new n = Ok f ->
     both (entrywise (parts holds) (n / 2 + 1) (n / 2 + 1)) (r2c_diffmat (A := f64) f d) (r2c_diffmat (A := R) f d)) /\
  (forall f, c2c_new n = Ok f ->
     both (entrywise (parts holds) n n) (c2c_diffmat (A := f64) f d) (c2c_diffmat (A := R) f d)).
Proof.
  intros n d Hn D1 D2 Hd. assert (E : Z.of_nat (n / 2) = (Z.of_nat n / 2)%Z) by (rewrite Nat2Z.inj_div; reflexivity). split; intros f Hf.
  - apply r2c_new_inv in Hf as [Hn1 ->]. unfold r2c_diffmat. cbn [r2c_len_spec r2c_len_phys r_n r_m].
    apply (gen_diffmat (Z.max 1 (Z.of_nat n / 2)) _ _ _ INR); auto; try lia.
    eapply wn_mono. 2: apply r2c_wn; auto. lia. apply r2c_wavenumber_val.
  - apply c2c_new_inv in Hf as [Hn1 ->]. unfold c2c_diffmat. cbn [c2c_len_spec c2c_len_phys cc_n cc_m].
    apply (gen_diffmat (Z.max 1 (Z.of_nat n / 2)) _ _ _ (kap n)); auto; try lia.
    eapply wn_mono. 2: apply c2c_wn; auto. lia. apply c2c_wavenumber_val; auto.
Qed.
Print Assumptions C64_fourier_diffmat_f64.

(** its pseudo-inverse: within 3 * 2^-53 in each part; the identity part exact *)
Theorem C64_fourier_diffmat_pinv_f64 : forall n d, (Z.of_nat n <= 2 ^ 53)%Z -> (1 <= d)%nat -> (Z.of_nat d < 2 ^ 31)%Z ->
  (Z.max 1 (Z.of_nat n / 2) ^ Z.of_nat d <= 2 ^ 53)%Z ->
  (forall f, r2c_new n = Ok f -> let m := (n / 2 + 1)%nat in
     both (fun p q => entrywise (parts (within (3 * bpow radix2 (-53)))) m m (fst p) (fst q) /\ entrywise (parts holds) (m - 1) m (snd p) (snd q))
       (r2c_diffmat_pinv (A := f64) f d) (r2c_diffmat_pinv (A := R) f d)) /\
  (forall f, c2c_new n = Ok f ->
     both (fun p q => entrywise (parts (within (3 * bpow radix2 (-53)))) n n (fst p) (fst q) /\ entrywise (parts holds) (n - 1) n (snd p) (snd q))
       (c2c_diffmat_pinv (A := f64) f d) (c2c_diffmat_pinv (A := R) f d)).
Proof.
  intros n d Hn D1 D2 Hd. assert (E : Z.of_nat (n / 2) = (Z.of_nat n / 2)%Z) by (rewrite Nat2Z.inj_div; reflexivity). split; intros f Hf.
  - apply r2c_new_inv in Hf as [Hn1 ->]. unfold r2c_diffmat_pinv. cbn [r2c_len_spec r2c_len_phys r_n r_m]. cbv zeta.
    apply (gen_diffmat_pinv (Z.max 1 (Z.of_nat n / 2)) _ _ _ INR); auto; try lia.
    eapply wn_mono. 2: apply r2c_wn; auto. lia. apply r2c_wavenumber_val. intros; apply INR_nz; lia.
  - apply c2c_new_inv in Hf as [Hn1 ->]. unfold c2c_diffmat_pinv. cbn [c2c_len_spec c2c_len_phys cc_n cc_m].
    apply (gen_diffmat_pinv (Z.max 1 (Z.of_nat n / 2)) _ _ _ (kap n)); auto; try lia.
    eapply wn_mono. 2: apply c2c_wn; auto. lia. apply c2c_wavenumber_val; auto. intros; apply kap_nz; auto.
Qed.
Print Assumptions C64_fourier_diffmat_pinv_f64.

(** laplacian: every entry correctly rounded; its pseudo-inverse within 3 * 2^-53 *)
Theorem C64_fourier_laplacian_f64 : forall n, (Z.of_nat n <= 2 ^ 53)%Z ->
  (forall f, r2c_new n = Ok f -> let m := (n / 2 + 1)%nat in
     both (entrywise rounds m m) (r2c_laplacian (A := f64) f) (r2c_laplacian (A := R) f) /\
     both (fun p q => entrywise (within (3 * bpow radix2 (-53))) m m (fst p) (fst q) /\ entrywise holds (m - 1) m (snd p) (snd q))
       (r2c_laplacian_pinv (A := f64) f) (r2c_laplacian_pinv (A := R) f)) /\
  (forall f, c2c_new n = Ok f ->
     both (entrywise rounds n n) (c2c_laplacian (A := f64) f) (c2c_laplacian (A := R) f) /\
     both (fun p q => entrywise (within (3 * bpow radix2 (-53))) n n (fst p) (fst q) /\ entrywise holds (n - 1) n (snd p) (snd q))
       (c2c_laplacian_pinv (A := f64) f) (c2c_laplacian_pinv (A := R) f)).
Proof.
  intros n Hn. assert (E : (n / 2 <= n)%nat) by (apply Nat.div_le_upper_bound; lia). split; intros f Hf.
  - apply r2c_new_inv in Hf as [Hn1 ->]. unfold r2c_laplacian, r2c_laplacian_pinv. cbn [r2c_len_spec r2c_len_phys r_n r_m]. cbv zeta. split.
    + apply (gen_laplacian (Z.of_nat (n / 2)) _ _ _ INR); auto; try lia. apply r2c_wn; auto. apply r2c_wavenumber_val.
    + apply (gen_laplacian_pinv (Z.of_nat (n / 2)) _ _ _ INR); auto; try lia. apply r2c_wn; auto. apply r2c_wavenumber_val. intros; apply INR_nz; lia.
  - apply c2c_new_inv in Hf as [Hn1 ->]. unfold c2c_laplacian, c2c_laplacian_pinv. cbn [c2c_len_spec c2c_len_phys cc_n cc_m]. split.
    + apply (gen_laplacian (Z.of_nat (n / 2)) _ _ _ (kap n)); auto; try lia. apply c2c_wn; auto. apply c2c_wavenumber_val; auto.
    + apply (gen_laplacian_pinv (Z.of_nat (n / 2)) _ _ _ (kap n)); auto; try lia. apply c2c_wn; auto. apply c2c_wavenumber_val; auto. intros; apply kap_nz; auto.
Qed.
Print Assumptions C64_fourier_laplacian_f64.

(** ** Concrete cases: n = 5, c2c: wavenumbers 0, 1, 2, -2, -1 *)
Example C64_case_c2c : exists f, c2c_new 5 = Ok f /\ (Z.max 1 (Z.of_nat 5 / 2) ^ Z.of_nat 3 <= 2 ^ 53)%Z /\
  wp (c2c_diffmat (A := f64) f 3) (fun M => B2SF (snd M.[3].[3]) = B2SF (nofZ 8%Z : f64) /\ B2SF (snd M.[2].[2]) = B2SF (nofZ (-8)%Z : f64)) /\
  wp (c2c_laplacian_pinv (A := f64) f) (fun p => B2SF (fst p).[3].[3] = B2SF (ndiv (nofZ (-1)%Z) (nofZ 4%Z) : f64)).
Proof. exists (mk_c2c 5 5). split; [reflexivity|]. split; [discriminate|]. split; vm_compute; auto. Qed.
(** -1/9 is not an f64: the pseudo-inverse rounds *)
Example C64_case_r2c : exists f, r2c_new 7 = Ok f /\ (Z.max 1 (Z.of_nat 7 / 2) ^ Z.of_nat 2 <= 2 ^ 53)%Z /\
  wp (r2c_diffmat_pinv (A := f64) f 2) (fun p => B2SF (fst (fst p).[3].[3]) = B2SF (ndiv (nofZ (-9)%Z) (nofZ 81%Z) : f64)).
Proof. exists (mk_r2c 7 4). split; [reflexivity|]. split; [discriminate|]. vm_compute. reflexivity. Qed.
