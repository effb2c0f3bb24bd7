(** FourierOps: gradient and matrices of the Fourier bases. *)
From Coq Require Import List Arith ZArith Reals Bool Lra Lia Ring.
From Verif Require Import Base Num Linalg Cheb ChebPoly ChebGrad Fourier FourierFacts FourierProofs.
Import ListNotations.
Local Open Scope R_scope.

Ltac clia := unfold cplx in *; lia.
Definition iR (a : R) : CR := (0, a).
Lemma ik_iR k : ik (A := R) k = iR (INR k).
Proof. unfold ik, nofN, iR. cbn. rewrite <- INR_IZR_INZ. auto. Qed.

(** ** Gradient *)
Lemma wp_mul_at (out : list CR) i z (Q : list CR -> Prop) : (i < length out)%nat ->
  Q (upd out i (cmul out.[i] z)) -> wp (mul_at out i z) Q.
Proof. intros. unfold mul_at. rewrite rd_at by auto. cbn [bind]. rewrite wr_at by auto. auto. Qed.

Lemma mul_up hi (g : nat -> CR) (out : list CR) : (hi <= length out)%nat ->
  wp (for_each (range 0 hi) (fun k out => mul_at out k (g k)) out) (fun o => length o = length out /\
    forall i, (i < length out)%nat -> o.[i] = if (i <? hi)%nat then cmul out.[i] (g i) else out.[i]).
Proof.
  intros H.
  apply (wp_for_each_range 0 hi _ (fun t (o : list CR) => length o = length out /\
    forall i, (i < length out)%nat -> o.[i] = if (i <? t)%nat then cmul out.[i] (g i) else out.[i])); auto.
  - lia.
  - intros i s Hi [L I]. apply wp_mul_at. lia. split. rewrite upd_length; auto.
    intros j Hj. destruct (Nat.eq_dec i j) as [<-|].
    + rewrite at_upd_eq by lia. rewrite I by lia.
      destruct (Nat.ltb_spec i i), (Nat.ltb_spec i (i + 1)); auto; lia.
    + rewrite at_upd_ne by auto. rewrite I by lia.
      destruct (Nat.ltb_spec j i), (Nat.ltb_spec j (i + 1)); auto; lia.
Qed.

Lemma mul_down n hi (g : nat -> CR) (out : list CR) : length out = n -> (hi <= n)%nat ->
  wp (for_each (range 0 hi) (fun k out => mul_at out (length out - 1 - k) (g k)) out) (fun o => length o = n /\
    forall i, (i < n)%nat -> o.[i] = if (n <=? i + hi)%nat then cmul out.[i] (g (n - 1 - i)%nat) else out.[i]).
Proof.
  intros Hn H.
  apply (wp_for_each_range 0 hi _ (fun t (o : list CR) => length o = n /\
    forall i, (i < n)%nat -> o.[i] = if (n <=? i + t)%nat then cmul out.[i] (g (n - 1 - i)%nat) else out.[i])); auto.
  - lia.
  - split; auto. intros. destruct (Nat.leb_spec n (i + 0)); auto; lia.
  - intros i s Hi [L I]. apply wp_mul_at. lia. split. rewrite upd_length; auto.
    intros j Hj. rewrite L. destruct (Nat.eq_dec (n - 1 - i) j) as [<-|].
    + rewrite at_upd_eq by lia. rewrite I by lia.
      replace (n - 1 - (n - 1 - i))%nat with i by lia.
      destruct (Nat.leb_spec n (n - 1 - i + i)), (Nat.leb_spec n (n - 1 - i + (i + 1))); auto; lia.
    + rewrite at_upd_ne by auto. rewrite I by lia.
      destruct (Nat.leb_spec n (j + i)), (Nat.leb_spec n (j + (i + 1))); auto; lia.
Qed.

(** repeated multiplication *)
Lemma grad_iter n (body : list CR -> res (list CR)) (g : nat -> CR) (x : list CR) d :
  length x = n ->
  (forall o, length o = n -> wp (body o) (fun o' => length o' = n /\ forall i, (i < n)%nat -> o'.[i] = cmul o.[i] (g i))) ->
  wp (for_each (range 0 d) (fun _ o => body o) x) (fun o => length o = n /\
    forall i, (i < n)%nat -> o.[i] = cmul x.[i] (cpow (g i) d)).
Proof.
  intros Hx Hb.
  apply (wp_for_each_range 0 d _ (fun t (o : list CR) => length o = n /\
    forall i, (i < n)%nat -> o.[i] = cmul x.[i] (cpow (g i) t))); auto; try lia.
  - split; auto. intros. cbn [cpow]. ring.
  - intros t o Ht [L I]. eapply wp_mono; [apply Hb; auto|]. intros o' [L' I']. split; auto.
    intros. rewrite I', I by auto. replace (t + 1)%nat with (S t) by lia. cbn [cpow]. ring.
Qed.

Lemma r2c_gradient_val n (x o : list CR) d :
  length x = (n / 2 + 1)%nat -> length o = (n / 2 + 1)%nat ->
  wp (r2c_gradient (mk_r2c n (n / 2 + 1)) x o d) (fun y => length y = (n / 2 + 1)%nat /\
    forall k, (k < n / 2 + 1)%nat -> y.[k] = cmul x.[k] (cpow (iR (INR k)) d)).
Proof.
  intros. unfold r2c_gradient, r2c_len_spec. cbn [r_m].
  rewrite !assert_ok by (apply Nat.eqb_eq; congruence). rewrite zip_write_full by congruence.
  apply (grad_iter _ _ (fun k => iR (INR k))); auto.
  intros q Hq. eapply wp_mono; [apply mul_up; auto|]. intros q' [L I]. split. lia.
  intros. rewrite I by lia. destruct (Nat.ltb_spec i (length q)); [|lia]. rewrite ik_iR. auto.
Qed.

(** what the c2c gradient multiplies mode k with *)
Definition npos (n : nat) : nat := ((n - 1) / 2 + 1)%nat.
Lemma npos_split n : (1 <= n)%nat -> (npos n + n / 2 = n)%nat.
Proof.
  intros. unfold npos. pose proof (Nat.div_mod n 2). pose proof (Nat.mod_upper_bound n 2).
  pose proof (Nat.div_mod (n-1) 2). pose proof (Nat.mod_upper_bound (n-1) 2). lia.
Qed.
Definition gmul (n k : nat) : R := if (k <? npos n)%nat then INR k else INR (n - 1 - k).

Lemma c2c_gradient_val n (x o : list CR) d : (1 <= n)%nat -> length x = n -> length o = n ->
  wp (c2c_gradient (mk_c2c n n) x o d) (fun y => length y = n /\
    forall k, (k < n)%nat -> y.[k] = cmul x.[k] (cpow (iR (gmul n k)) d)).
Proof.
  intros Hn Hx Ho. unfold c2c_gradient, c2c_len_spec. cbn [cc_m].
  rewrite !assert_ok by (apply Nat.eqb_eq; congruence). rewrite zip_write_full by congruence.
  apply wp_bind, wp_usub; [lia|].
  apply (grad_iter _ _ (fun k => iR (gmul n k))); auto.
  intros q Hq. unfold c2c_grad_once. apply wp_bind, wp_usub; [lia|].
  pose proof (npos_split n Hn) as NP. fold (npos n).
  apply wp_bind. eapply wp_mono; [apply mul_up; lia|]. cbv beta. intros q1 [L1 I1].
  eapply wp_mono; [apply (mul_down n); lia|]. intros q2 [L2 I2]. split; auto.
  intros i Hi. rewrite I2, I1 by lia. unfold gmul.
  destruct (Nat.leb_spec n (i + Nat.min (n / 2) (length q1))), (Nat.ltb_spec i (Nat.min (npos n) (length q))), (Nat.ltb_spec i (npos n)); try lia; rewrite ik_iR; auto.
Qed.

(** ** Wavenumbers *)
Definition kap (n k : nat) : R := if (k <? npos n)%nat then INR k else (INR k - INR n).

Lemma c2c_wavenumber_val n : (1 <= n)%nat ->
  wp (c2c_wavenumber (A := R) n) (fun w => length w = n /\ forall k, (k < n)%nat -> w.[k] = iR (kap n k)).
Proof.
  intros Hn. unfold c2c_wavenumber. apply wp_bind, wp_usub; [lia|]. fold (npos n).
  pose proof (npos_split n Hn) as NP. cbv zeta.
  replace (Nat.min (npos n) n) with (npos n) by lia. replace (Nat.min (n / 2) n) with (n / 2)%nat by lia.
  apply wp_bind.
  apply (wp_for_each_range 0 (npos n) _ (fun t (w : list CR) => length w = n /\
    forall k, (k < n)%nat -> w.[k] = if (k <? t)%nat then iR (INR k) else c0)); try lia.
  - split. apply repeat_length. intros. etransitivity; [apply at_repeat; auto|]. auto.
  - intros i w Hi [L I]. apply wp_bind, wp_rd. { clia. } rewrite wr_at by clia. split. rewrite upd_length; auto.
    intros k Hk. destruct (Nat.eq_dec i k) as [<-|].
    + rewrite at_upd_eq by lia. rewrite I by lia. unfold nofN. cbn [nofZ num_R]. rewrite <- INR_IZR_INZ.
      destruct (Nat.ltb_spec i i), (Nat.ltb_spec i (i + 1)); try lia. auto.
    + rewrite at_upd_ne by auto. rewrite I by lia.
      destruct (Nat.ltb_spec k i), (Nat.ltb_spec k (i + 1)); try lia; auto.
  - intros w [L I].
    apply (wp_for_each_range 0 (n / 2) _ (fun t (w : list CR) => length w = n /\
      forall k, (k < n)%nat -> w.[k] = if (n <=? k + t)%nat then iR (INR k - INR n) else if (k <? npos n)%nat then iR (INR k) else c0)); try lia.
    + split; auto. intros. destruct (Nat.leb_spec n (k + 0)); [lia|]. auto.
    + intros i v Hi [L' I']. apply wp_bind, wp_rd; [clia|]. rewrite wr_at by clia. split. rewrite upd_length; auto.
      intros k Hk. destruct (Nat.eq_dec (n - 1 - i) k) as [<-|].
      * rewrite at_upd_eq by lia. rewrite I' by lia.
        destruct (Nat.leb_spec n (n - 1 - i + i)), (Nat.leb_spec n (n - 1 - i + (i + 1))),
           (Nat.ltb_spec (n - 1 - i) (npos n)); try lia.
        unfold iR, c0. cbn [fst nofZ num_R n0]. f_equal.
        rewrite !INR_IZR_INZ, <- minus_IZR. f_equal. lia.
      * rewrite at_upd_ne by auto. rewrite I' by lia.
        destruct (Nat.leb_spec n (k + i)), (Nat.leb_spec n (k + (i + 1))); try lia; auto.
    + intros v [L' I']. split; auto. intros. rewrite I' by auto. unfold kap.
      destruct (Nat.leb_spec n (k + n / 2)), (Nat.ltb_spec k (npos n)); try lia; auto.
Qed.

Lemma r2c_wavenumber_val n :
  wp (r2c_wavenumber (A := R) n) (fun w => length w = (n / 2 + 1)%nat /\ forall k, (k < n / 2 + 1)%nat -> w.[k] = iR (INR k)).
Proof.
  cbn. split. rewrite map_length, seq_length; auto. intros.
  etransitivity; [apply at_map_seq; auto|]. apply ik_iR.
Qed.

(** ** Diagonal matrices *)
Definition is_diag {B} {db : Dflt B} (m : nat) (D : list (list B)) (z : B) (g : nat -> B) : Prop :=
  mat_dims D m m /\ forall i j, (i < m)%nat -> (j < m)%nat -> D.[i].[j] = if (i =? j)%nat then g i else z.

Lemma diag_zip_val {B} {db : Dflt B} m (f : CR -> B) (fr : CR -> res B) (wn : list CR) :
  length wn = m -> (forall k, fr k = Ok (f k)) ->
  wp (diag_zip fr (mzeros dflt m m) wn) (fun D => is_diag m D dflt (fun i => f wn.[i])).
Proof.
  intros Hw Hf. unfold diag_zip.
  replace (length (mzeros dflt m m)) with m by (unfold mzeros; rewrite repeat_length; auto).
  assert (G : forall (wn : list CR) s M, (s + length wn = m)%nat -> mat_dims M m m ->
    wp (for_each (combine (seq s (length wn)) wn) (fun ik mat => let* y := fr (snd ik) in mwr mat (fst ik) (fst ik) y) M)
       (fun D => mat_dims D m m /\ forall i j, (i < m)%nat -> (j < m)%nat ->
          D.[i].[j] = if (i =? j)%nat && (s <=? i)%nat then f wn.[i - s] else M.[i].[j])).
  { clear wn Hw. induction wn as [|w wn IH]; intros s M Hs HM; cbn [length seq combine for_each].
    - split; auto. intros. cbn in Hs. destruct (Nat.leb_spec s i); [lia|]. rewrite andb_false_r. auto.
    - cbn in Hs. cbn [fst snd]. rewrite Hf. cbn [bind].
      apply wp_bind. apply (wp_mwr _ m m); auto; try lia.
      intros M' HM' E1 E2. eapply wp_mono; [apply (IH (S s)); auto; lia|]. intros D [HD ED]. split; auto.
      intros i j Hi Hj. rewrite ED by auto.
      destruct (Nat.eqb_spec i j) as [<-|]; cbn [andb].
      + destruct (Nat.leb_spec (S s) i), (Nat.leb_spec s i); try lia.
        * replace (i - s)%nat with (S (i - S s)) by lia. reflexivity.
        * replace i with s by lia. rewrite Nat.sub_diag. auto.
        * apply E2. lia.
      + apply E2. lia. }
  specialize (G wn 0%nat (mzeros dflt m m)). rewrite Hw in G.
  eapply wp_mono; [apply G; auto; apply mzeros_dims|]. intros D [HD ED]. split; auto.
  intros. rewrite ED by auto. rewrite Nat.leb_refl || idtac. cbn [Nat.leb]. rewrite andb_true_r, Nat.sub_0_r.
  rewrite mzeros_at. auto.
Qed.

Lemma diag1_map_val {B} {db : Dflt B} m D z g (inv : B -> B) : (1 <= m)%nat -> is_diag m D z g ->
  wp (diag1_map inv m D) (fun P => is_diag m P z (fun i => if (i =? 0)%nat then g i else inv (g i))).
Proof.
  intros Hm [HD ED]. unfold diag1_map. rewrite assert_ok by (apply Nat.leb_le; auto).
  apply (wp_for_each_range 1 m _ (fun t P => mat_dims P m m /\ forall i j, (i < m)%nat -> (j < m)%nat ->
    P.[i].[j] = if (i =? j)%nat then (if (i =? 0)%nat || (t <=? i)%nat then g i else inv (g i)) else z)); auto.
  - split; auto. intros. rewrite ED by auto. destruct (Nat.eqb_spec i j); auto.
    destruct (Nat.eqb_spec i 0), (Nat.leb_spec 1 i); auto; lia.
  - intros t P Ht [HP EP]. apply wp_bind. apply (wp_mrd _ m m); auto; try lia.
    apply (wp_mwr _ m m); auto; try lia. intros P' HP' E1 E2. split; auto.
    intros i j Hi Hj. destruct (Nat.eqb_spec i j) as [<-|].
    + destruct (Nat.eq_dec i t) as [->|].
      * rewrite E1, EP by auto. rewrite Nat.eqb_refl.
        destruct (Nat.eqb_spec t 0), (Nat.leb_spec t t), (Nat.leb_spec (t + 1) t); try lia. auto.
      * rewrite E2 by lia. rewrite EP by auto. rewrite Nat.eqb_refl.
        destruct (Nat.eqb_spec i 0), (Nat.leb_spec t i), (Nat.leb_spec (t + 1) i); try lia; auto.
    + rewrite E2 by lia. rewrite EP by auto. destruct (Nat.eqb_spec i j); auto. lia.
  - intros P [HP EP]. split; auto. intros. rewrite EP by auto. destruct (Nat.eqb_spec i j); auto.
    destruct (Nat.leb_spec m i); [lia|]. rewrite orb_false_r. auto.
Qed.

Notation i32max := 2147483648%Z.

Lemma f_diffmat_val m wr (kk : nat -> R) d :
  wp wr (fun w => length w = m /\ forall k, (k < m)%nat -> w.[k] = iR (kk k)) ->
  (1 <= d)%nat -> (Z.of_nat d < i32max)%Z ->
  wp (f_diffmat m wr d) (fun D => is_diag m D (c0 : CR) (fun k => cpow (iR (kk k)) d)).
Proof.
  intros Hw H1 H2. unfold f_diffmat. rewrite assert_ok by (apply Nat.ltb_lt; lia).
  apply wp_bind. eapply wp_mono; [exact Hw|]. cbv beta. intros w [L I].
  eapply wp_mono; [apply (diag_zip_val m (fun k => cpow k d)); auto|].
  - intros k. unfold powi. rewrite assert_ok; auto. apply Z.ltb_lt; auto.
  - intros D [HD ED]. split; auto. intros. rewrite ED by auto. rewrite I by auto. auto.
Qed.

Lemma f_diffmat_0 m (wr : res (list CR)) : f_diffmat m wr 0 = Panic.
Proof. reflexivity. Qed.
Lemma f_diffmat_big m (w : list CR) d : (1 <= m)%nat -> length w = m -> (i32max <= Z.of_nat d)%Z ->
  f_diffmat m (Ok w) d = Panic.
Proof.
  intros. unfold f_diffmat. rewrite assert_ok by (apply Nat.ltb_lt; lia). cbn [bind]. unfold diag_zip.
  destruct m; [lia|]. destruct w; [discriminate|]. unfold mzeros. rewrite repeat_length. cbn [seq combine for_each fst snd].
  unfold powi. rewrite assert_no; auto. apply Z.ltb_ge. auto.
Qed.

Lemma eye_at {B} {NB : Num B} m i j : (i < m)%nat -> (j < m)%nat -> (eye m).[i].[j] = if (i =? j)%nat then n1 else n0.
Proof.
  intros. unfold eye. rewrite (at_map_seq (d := dflt_list)) by auto. rewrite (at_map_seq (d := dflt_num)) by auto. auto.
Qed.
