(** FourierProofs: what the transforms of the Fourier bases compute. *)
From Coq Require Import List Arith ZArith Reals Bool Lra Lia Ring.
From Verif Require Import Base Num Linalg Cheb ChebGrad Fourier FourierFacts.
Import ListNotations.
Local Open Scope R_scope.

Lemma c2c_new_inv n f : c2c_new n = Ok f -> (1 <= n)%nat /\ f = mk_c2c n n.
Proof. unfold c2c_new. destruct (Nat.leb_spec 1 n); simpl; try discriminate. intros [= <-]; auto. Qed.
Lemma r2c_new_inv n f : r2c_new n = Ok f -> (1 <= n)%nat /\ f = mk_r2c n (n / 2 + 1).
Proof. unfold r2c_new. destruct (Nat.leb_spec 1 n); simpl; try discriminate. intros [= <-]; auto. Qed.

Lemma assert_ok b {B} (k : res B) : b = true -> (assertb b ;; k) = k.
Proof. intros ->. auto. Qed.
Lemma assert_no b {B} (k : res B) : b = false -> (assertb b ;; k) = Panic.
Proof. intros ->. auto. Qed.

Lemma div2_lt n : (1 <= n)%nat -> (n / 2 < n)%nat.
Proof. intros. apply Nat.div_lt; lia. Qed.
Lemma div2_lt1 n : (1 <= n)%nat -> (n / 2 + 1 <= n)%nat.
Proof. intros. pose proof (div2_lt n H). lia. Qed.

(** 1/n scaling *)
Definition sc (n : nat) (x : CR) : CR := cmul (/ INR n, 0) x.
Lemma INR_cor n : 1 / IZR (Z.of_nat n) = / INR n.
Proof. rewrite <- INR_IZR_INZ. unfold Rdiv. ring. Qed.
Lemma sc_inv n x : (1 <= n)%nat -> sc n (cmul (INR n, 0) x) = x.
Proof.
  intros. unfold sc. assert (INR n <> 0) by (apply not_0_INR; lia). destruct x; cx; field; auto.
Qed.

(** ** c2c *)
Lemma c2c_forward_val n x o : length x = n -> length o = n ->
  c2c_forward (mk_c2c n n) x o = Ok (fft false n (x : list CR)).
Proof.
  intros. unfold c2c_forward, c2c_len_phys, c2c_len_spec, process_fft. cbn [cc_n cc_m].
  rewrite !assert_ok by (apply Nat.eqb_eq; rewrite ?zip_write_length; auto).
  rewrite zip_write_full by congruence. auto.
Qed.

Lemma c2c_backward_val n c o : length c = n -> length o = n ->
  c2c_backward (mk_c2c n n) c o = Ok (fft true n (map (sc n) c)).
Proof.
  intros. unfold c2c_backward, c2c_len_phys, c2c_len_spec, process_fft. cbn [cc_n cc_m].
  rewrite !assert_ok by (apply Nat.eqb_eq; rewrite ?zip_write_length; auto).
  rewrite zip_write_full by (etransitivity; [apply map_length|]; unfold cplx in *; congruence). do 2 f_equal.
  apply map_ext. intros [a b]. unfold sc, cmul. cbn [fst snd nsub nmul nadd ndiv n1 num_R]. unfold nofN; cbn. rewrite INR_cor. f_equal; ring.
Qed.

Lemma at_map_c (f : CR -> CR) (l : list CR) i : (i < length l)%nat -> (map f l).[i] = f l.[i].
Proof. intros. apply at_map; auto. Qed.

Lemma c2c_fb n (x : list CR) : (1 <= n)%nat -> length x = n -> fft true n (map (sc n) (fft false n x)) = x.
Proof.
  intros Hn Hx. apply list_ext. rewrite fft_length; auto. rewrite fft_length. intros k Hk.
  rewrite fft_at by auto.
  rewrite (csum_ext n _ (fun j => sc n (cmul (csum n (fun l => cmul x.[l] (E n (sgn false (Z.of_nat l * Z.of_nat j)))))
                                     (E n (sgn (negb false) (Z.of_nat j * Z.of_nat k)))))).
  2:{ intros j Hj. rewrite at_map_c by (rewrite fft_length; auto). rewrite fft_at by auto. unfold sc. change (negb false) with true. ring. }
  unfold sc. rewrite csum_scal_l, dft_inv by auto. apply sc_inv; auto.
Qed.

Lemma c2c_bf n (x : list CR) : (1 <= n)%nat -> length x = n -> fft false n (fft true n (map (sc n) x)) = x.
Proof.
  intros Hn Hx. apply list_ext. rewrite fft_length; auto. rewrite fft_length. intros k Hk.
  rewrite fft_at by auto.
  rewrite (csum_ext n _ (fun j => (cmul (csum n (fun l => cmul (sc n x.[l]) (E n (sgn true (Z.of_nat l * Z.of_nat j)))))
                                     (E n (sgn (negb true) (Z.of_nat j * Z.of_nat k)))))).
  2:{ intros j Hj. rewrite fft_at by auto. f_equal. apply csum_ext. intros l Hl.
      rewrite at_map_c by lia. auto. }
  rewrite (dft_inv n true (fun l => sc n x.[l])) by auto. cbv beta.
  rewrite <- (sc_inv n x.[k]) at 2 by auto. unfold sc. ring.
Qed.

(** ** r2c *)
Lemma r2c_forward_val n x o : (1 <= n)%nat -> length x = n -> length o = (n / 2 + 1)%nat ->
  r2c_forward (mk_r2c n (n / 2 + 1)) x o =
  Ok (firstn (n / 2 + 1) (fft false n (map (fun a : R => (a, 0)) x))).
Proof.
  intros. unfold r2c_forward, r2c_len_phys, r2c_len_spec, process_r2c. cbn [r_n r_m].
  rewrite !assert_ok by (apply Nat.eqb_eq; rewrite ?zip_write_length, ?repeat_length; auto).
  rewrite zip_write_full by (rewrite repeat_length; auto). auto.
Qed.

(** zeroed modes *)
Definition selfc (n k : nat) : bool := (k =? 0)%nat || (2 * k =? n)%nat.
(** what backward hands to realfft *)
Definition realed (n : nat) (k : nat) (x : CR) : CR := (fst x, if selfc n k then 0 else snd x).
Definition rin (n : nat) (c : list CR) : list CR :=
  map (fun k => sc n (realed n k c.[k])) (seq 0 (n / 2 + 1)).

Lemma wp_zero_im (c : list CR) i (Q : list CR -> Prop) : (i < length c)%nat ->
  Q (upd c i (fst c.[i], 0)) -> wp (zero_im c i) Q.
Proof. intros. unfold zero_im. rewrite rd_at by auto. cbn [bind]. rewrite wr_at by auto. auto. Qed.
Lemma zero_im_val (c : list CR) i : (i < length c)%nat -> zero_im c i = Ok (upd c i (fst c.[i], 0)).
Proof. intros. unfold zero_im. rewrite rd_at by auto. cbn [bind]. rewrite wr_at by auto. auto. Qed.

Lemma even_half n : (n mod 2 = 0)%nat -> (2 * (n / 2) = n)%nat.
Proof. intros. pose proof (Nat.div_mod n 2). lia. Qed.
Lemma odd_half n : (n mod 2 <> 0)%nat -> (2 * (n / 2) + 1 = n)%nat.
Proof. intros. pose proof (Nat.div_mod n 2). pose proof (Nat.mod_upper_bound n 2). lia. Qed.

Lemma is0_0 : is0 0 = true.
Proof. unfold is0, eqz_R. destruct (Req_EM_T 0 0); auto. Qed.

Lemma r2c_backward_val n c o : (1 <= n)%nat -> length c = (n / 2 + 1)%nat -> length o = n ->
  r2c_backward (mk_r2c n (n / 2 + 1)) c o = Ok (map fst (fft true n (hermitian n (rin n c)))).
Proof.
  intros Hn Hc Ho. unfold r2c_backward, r2c_len_phys, r2c_len_spec. cbn [r_n r_m].
  rewrite !assert_ok by (apply Nat.eqb_eq; rewrite ?zip_write_length, ?repeat_length; auto).
  rewrite zip_write_full by (rewrite repeat_length, map_length; auto).
  match goal with |- context [map ?f c] => set (c' := map f c : list CR) end.
  assert (Lc : length c' = (n / 2 + 1)%nat) by (unfold c'; rewrite map_length; auto).
  assert (Hc' : forall k, (k < n / 2 + 1)%nat -> c'.[k] = sc n c.[k]).
  { intros. unfold c'. rewrite at_map_c by lia. unfold sc, cmul. destruct c.[k]. cbn [fst snd nsub nmul nadd ndiv n1 num_R]. unfold nofN; cbn [nofZ num_R]. rewrite INR_cor. f_equal; ring. }
  rewrite zero_im_val by lia. cbn [bind].
  assert (Hlast : (match (if (n mod 2 =? 0)%nat then let* m1 := usub (n / 2 + 1) 1 in zero_im (upd c' 0 (fst c'.[0], 0)) m1
     else Ok (upd c' 0 (fst c'.[0], 0))) with Ok c2 => c2 = rin n c | _ => False end)).
  { assert (Hr : forall k, (k < n / 2 + 1)%nat -> (rin n c).[k] = sc n (realed n k c.[k])).
    { intros. unfold rin. etransitivity; [apply at_map_seq; auto|]. auto. }
    destruct (Nat.eqb_spec (n mod 2) 0) as [He|He].
    - unfold usub. destruct (Nat.leb_spec 1 (n / 2 + 1)); [|lia]. cbn [bind].
      rewrite zero_im_val by (rewrite upd_length; lia).
      apply list_ext. unfold rin. rewrite !upd_length, map_length, seq_length. auto.
      rewrite !upd_length. intros k Hk. rewrite Hr by lia.
      unfold realed, selfc. replace (n / 2 + 1 - 1)%nat with (n / 2)%nat by lia.
      pose proof (even_half n He).
      destruct (Nat.eq_dec k (n / 2)) as [->|Hk2].
      + rewrite at_upd_eq by (rewrite upd_length; lia).
        destruct (Nat.eqb_spec (2 * (n / 2)) n); [|lia]. rewrite orb_true_r.
        destruct (Nat.eq_dec (n / 2) 0) as [E0|E0].
        * rewrite E0. rewrite at_upd_eq by lia. rewrite Hc' by lia. unfold sc; cx.
        * rewrite at_upd_ne by lia. rewrite Hc' by lia. unfold sc; cx.
      + rewrite at_upd_ne by auto.
        destruct (Nat.eqb_spec (2 * k) n); [lia|]. rewrite orb_false_r.
        destruct (Nat.eqb_spec k 0) as [->|].
        * rewrite at_upd_eq by lia. rewrite Hc' by lia. unfold sc; cx.
        * rewrite at_upd_ne by lia. rewrite Hc' by lia. destruct c.[k]; auto.
    - apply list_ext. unfold rin. rewrite !upd_length, map_length, seq_length. auto.
      rewrite !upd_length. intros k Hk. rewrite Hr by lia.
      unfold realed, selfc. pose proof (odd_half n He).
      destruct (Nat.eqb_spec (2 * k) n); [lia|]. rewrite orb_false_r.
      destruct (Nat.eqb_spec k 0) as [->|].
      + rewrite at_upd_eq by lia. rewrite Hc' by lia. unfold sc; cx.
      + rewrite at_upd_ne by lia. rewrite Hc' by lia. destruct c.[k]; auto. }
  destruct (if (n mod 2 =? 0)%nat then _ else _) as [c2| |]; try contradiction. subst c2. cbn [bind].
  unfold process_c2r.
  assert (Lr : length (rin n c) = (n / 2 + 1)%nat) by (unfold rin; rewrite map_length, seq_length; auto).
  rewrite Lr, Ho, !Nat.eqb_refl. cbn [assertb bind].
  assert (Hz : forall k, (k < n / 2 + 1)%nat -> selfc n k = true -> is0 (snd (rin n c).[k]) = true).
  { intros. unfold rin. rewrite (at_map_seq (d := dflt_vec)) by auto. unfold realed. cbn [Nat.add]. rewrite H0. unfold sc.
    replace (snd (cmul (/ INR n, 0) (fst c.[k], 0))) with 0. apply is0_0. cbn. ring. }
  rewrite (Hz 0%nat) by (auto; lia). cbn [assertb bind].
  destruct (Nat.eqb_spec (n mod 2) 0) as [He|He].
  - rewrite (Hz (n / 2)%nat); auto. lia. unfold selfc. rewrite even_half by auto. rewrite Nat.eqb_refl. apply orb_true_r.
  - reflexivity.
Qed.

Lemma hermitian_at n (c : list CR) k : (k < n)%nat ->
  (hermitian n c).[k] = if (k <=? n / 2)%nat then c.[k] else conj c.[n - k].
Proof. intros. unfold hermitian. etransitivity; [apply at_map_seq; auto|]. auto. Qed.
Lemma rin_at n c k : (k <= n / 2)%nat -> (rin n c).[k] = sc n (realed n k c.[k]).
Proof. intros. unfold rin. etransitivity; [apply at_map_seq; lia|]. auto. Qed.

Lemma at_firstn {T} {d : Dflt T} (l : list T) m k : (k < m)%nat -> (firstn m l).[k] = l.[k].
Proof.
  unfold at_. revert m k. induction l; intros; destruct m, k; simpl; auto; try lia.
  apply IHl. lia.
Qed.

Lemma at_reals (x : list R) j : (map (fun a : R => (a, 0)) x : list CR).[j] = (x.[j], 0).
Proof.
  destruct (Nat.lt_ge_cases j (length x)).
  - etransitivity; [apply at_map; auto|]. reflexivity.
  - rewrite !at_over; auto. rewrite map_length; auto.
Qed.

(** Fourier coefficients of a real signal. *)
Definition X (n : nat) (x : list R) (k : nat) : CR :=
  csum n (fun j => cmul (x.[j], 0) (E n (- (Z.of_nat j * Z.of_nat k)))).

Lemma X_fft n x k : (k < n)%nat -> (fft false n (map (fun a : R => (a, 0)) x)).[k] = X n x k.
Proof. intros. rewrite fft_at by auto. apply csum_ext. intros. rewrite at_reals. auto. Qed.

Lemma X_sym n x k : (1 <= n)%nat -> (0 < k < n)%nat -> conj (X n x (n - k)) = X n x k.
Proof.
  intros. unfold X. rewrite csum_conj. apply csum_ext. intros j Hj.
  rewrite conj_mul, <- E_opp. f_equal. cx.
  rewrite <- (E_mod n (- (Z.of_nat j * Z.of_nat k)) (Z.of_nat j)) by lia. f_equal. lia.
Qed.

Lemma X_self n x k : (1 <= n)%nat -> selfc n k = true -> snd (X n x k) = 0.
Proof.
  intros Hn H. apply orb_true_iff in H as [H|H]; apply Nat.eqb_eq in H.
  - subst. unfold X, csum; simpl. apply rsum_0. intros. rewrite Z.mul_0_r. simpl Z.opp.
    unfold E, arg. replace (2 * PI * 0 / INR n) with 0 by (unfold Rdiv; ring). rewrite sin_0. ring.
  - assert (S : conj (X n x k) = X n x k).
    { transitivity (conj (X n x (n - k))). replace (n - k)%nat with k by lia; auto. apply X_sym; lia. }
    destruct (X n x k) as [u v]. unfold conj in S. cbn in S |- *. injection S. intros. lra.
Qed.

Lemma r2c_fb n (x : list R) : (1 <= n)%nat -> length x = n ->
  map fst (fft true n (hermitian n (rin n (firstn (n / 2 + 1) (fft false n (map (fun a : R => (a, 0)) x)))))) = x.
Proof.
  intros Hn Hx. pose proof (div2_lt n Hn).
  apply list_ext. rewrite map_length, fft_length; auto. rewrite map_length, fft_length. intros k Hk.
  rewrite (at_map (fun z : CR => fst z) (d := dflt_num) (dB := dflt_vec)) by (rewrite fft_length; auto).
  rewrite fft_at by auto.
  rewrite (csum_ext n _ (fun j => sc n (cmul (csum n (fun l => cmul (x.[l], 0) (E n (sgn false (Z.of_nat l * Z.of_nat j)))))
                                     (E n (sgn (negb false) (Z.of_nat j * Z.of_nat k)))))).
  { unfold sc. rewrite csum_scal_l, (dft_inv n false (fun l => (x.[l], 0))) by auto. 
    change (fst (sc n (cmul (INR n, 0) (x.[k], 0))) = x.[k]). rewrite sc_inv; auto. }
  intros j Hj. change (csum n (fun l => cmul (x.[l], 0) (E n (sgn false (Z.of_nat l * Z.of_nat j))))) with (X n x j).
  transitivity (cmul (sc n (X n x j)) (E n (sgn (negb false) (Z.of_nat j * Z.of_nat k)))); [|unfold sc; ring].
  f_equal. rewrite hermitian_at by auto.
  assert (R0 : forall i, (i <= n / 2)%nat -> realed n i (X n x i) = X n x i).
  { intros. unfold realed. destruct (selfc n i) eqn:S. rewrite <- (X_self n x i) by auto.
    all: destruct (X n x i); auto. }
  destruct (Nat.leb_spec j (n / 2)).
  - rewrite rin_at by auto. rewrite at_firstn by lia. rewrite X_fft by lia. rewrite R0; auto.
  - assert (n - j <= n / 2)%nat by (pose proof (Nat.div_mod n 2); pose proof (Nat.mod_upper_bound n 2); lia).
    rewrite rin_at by auto. rewrite at_firstn by lia. rewrite X_fft by lia. rewrite R0 by auto.
    unfold sc. rewrite conj_mul, X_sym by lia. f_equal. cx.
Qed.

Lemma rsum_S n f : rsum (S n) f = rsum n f + f n.
Proof. reflexivity. Qed.

(** Sums over the Hermitian extension. *)
Lemma herm_sum n (g : nat -> R) (s : R) : (1 <= n)%nat ->
  rsum n (fun k => if (k <=? n / 2)%nat then g k else s * g (n - k)%nat) =
  g 0%nat + (if (n mod 2 =? 0)%nat then g (n / 2)%nat else 0) + (1 + s) * rsum ((n - 1) / 2) (fun i => g (S i)).
Proof.
  intros Hn. set (M := ((n - 1) / 2)%nat).
  assert (HM : (n - 1 - n / 2 = M)%nat).
  { unfold M. pose proof (Nat.div_mod n 2). pose proof (Nat.mod_upper_bound n 2).
    pose proof (Nat.div_mod (n-1) 2). pose proof (Nat.mod_upper_bound (n-1) 2). lia. }
  pose proof (div2_lt n Hn).
  transitivity (rsum (n / 2 + 1 + M) (fun k => if (k <=? n / 2)%nat then g k else s * g (n - k)%nat)).
  { f_equal. lia. }
  rewrite rsum_split.
  rewrite (rsum_ext (n / 2 + 1) _ g).
  2:{ intros. destruct (Nat.leb_spec k (n / 2)); auto; lia. }
  rewrite (rsum_ext M _ (fun i => s * g (n - (n / 2 + 1 + i))%nat)).
  2:{ intros. destruct (Nat.leb_spec (n / 2 + 1 + k) (n / 2)); auto; lia. }
  rewrite rsum_scal_l. rewrite (rsum_rev M).
  rewrite (rsum_ext M _ (fun i => g (S i))) by (intros; f_equal; lia).
  replace (n / 2 + 1)%nat with (S (n / 2)) by lia. rewrite rsum_first.
  destruct (Nat.eqb_spec (n mod 2) 0) as [He|He].
  - pose proof (even_half n He). replace (n / 2)%nat with (S M) at 1 by lia.
    rewrite (rsum_split 1 0) || idtac. simpl rsum. replace (g (n / 2)%nat) with (g (S M)) by (f_equal; lia). ring.
  - pose proof (odd_half n He). replace (n / 2)%nat with M by lia. ring.
Qed.

Lemma E_half_sin n j k : (1 <= n)%nat -> (2 * k = n)%nat -> snd (E n (Z.of_nat j * Z.of_nat k)) = 0.
Proof.
  intros. cbn. unfold arg. rewrite mult_IZR, <- !INR_IZR_INZ.
  replace (2 * PI * (INR j * INR k) / INR n) with (INR j * PI).
  apply sin_eq_0_1. exists (Z.of_nat j). rewrite <- INR_IZR_INZ. auto.
  rewrite <- H0, mult_INR. simpl (INR 2). field. apply not_0_INR. lia.
Qed.

Lemma c2r_im n (c : list CR) j : (1 <= n)%nat -> length c = (n / 2 + 1)%nat ->
  snd (csum n (fun k => cmul (hermitian n (rin n c)).[k] (E n (Z.of_nat k * Z.of_nat j)))) = 0.
Proof.
  intros Hn Hc. unfold csum; cbn [snd].
  set (g := fun k => snd (cmul (sc n (realed n k c.[k])) (E n (Z.of_nat k * Z.of_nat j)))).
  rewrite (rsum_ext n _ (fun k => if (k <=? n / 2)%nat then g k else (-1) * g (n - k)%nat)).
  - rewrite herm_sum by auto. unfold g.
    assert (H0 : snd (cmul (sc n (realed n 0 c.[0])) (E n (Z.of_nat 0 * Z.of_nat j))) = 0).
    { simpl Z.mul. rewrite E_0. unfold realed, selfc, sc. cbn. ring. }
    rewrite H0. destruct (Nat.eqb_spec (n mod 2) 0) as [He|He]; [|ring].
    pose proof (even_half n He).
    assert (H1 : snd (cmul (sc n (realed n (n / 2) c.[n / 2])) (E n (Z.of_nat (n / 2) * Z.of_nat j))) = 0).
    { unfold realed, selfc. rewrite H, Nat.eqb_refl, orb_true_r.
      pose proof (E_half_sin n j (n / 2) Hn H) as S. rewrite Z.mul_comm in S.
      destruct (E n (Z.of_nat (n / 2) * Z.of_nat j)) as [e1 e2]. cbn in S. subst e2. unfold sc. cbn. ring. }
    rewrite H1. ring.
  - intros k Hk. rewrite hermitian_at by auto. destruct (Nat.leb_spec k (n / 2)).
    + rewrite rin_at by auto. auto.
    + assert (n - k <= n / 2)%nat by (pose proof (Nat.div_mod n 2); pose proof (Nat.mod_upper_bound n 2); lia).
      rewrite rin_at by auto. unfold g.
      replace (E n (Z.of_nat k * Z.of_nat j)) with (conj (E n (Z.of_nat (n - k) * Z.of_nat j))).
      rewrite <- conj_mul. set (q := cmul _ _). destruct q. cbn. ring.
      rewrite <- E_opp. rewrite <- (E_mod n _ (Z.of_nat j)) by lia. f_equal. lia.
Qed.

(** weights of the real interpolant *)
Definition wgt (n k : nat) : R := if selfc n k then 1 else 2.

Lemma c2r_re n (c : list CR) j : (1 <= n)%nat -> length c = (n / 2 + 1)%nat ->
  fst (csum n (fun k => cmul (hermitian n (rin n c)).[k] (E n (Z.of_nat k * Z.of_nat j)))) =
  rsum (n / 2 + 1) (fun k => wgt n k * fst (cmul c.[k] (E n (Z.of_nat k * Z.of_nat j)))) / INR n.
Proof.
  intros Hn Hc. unfold csum; cbn [fst].
  set (g := fun k => fst (cmul (sc n (realed n k c.[k])) (E n (Z.of_nat k * Z.of_nat j)))).
  assert (Hg : forall k, (k <= n / 2)%nat -> g k = fst (cmul c.[k] (E n (Z.of_nat k * Z.of_nat j))) / INR n).
  { intros k Hk. unfold g, realed. destruct (selfc n k) eqn:S.
    - assert (S2 : snd (E n (Z.of_nat k * Z.of_nat j)) = 0).
      { apply orb_true_iff in S as [S|S]; apply Nat.eqb_eq in S.
        + subst. simpl Z.mul. rewrite E_0. auto.
        + rewrite Z.mul_comm. apply E_half_sin; auto. }
      destruct (E n (Z.of_nat k * Z.of_nat j)) as [e1 e2]. cbn in S2. subst e2. unfold sc. cbn. unfold Rdiv. ring.
    - unfold sc. destruct c.[k]. cbn. unfold Rdiv. ring. }
  rewrite (rsum_ext n _ (fun k => if (k <=? n / 2)%nat then g k else 1 * g (n - k)%nat)).
  - rewrite herm_sum by auto.
    replace (n / 2 + 1)%nat with (S (n / 2)) by lia. rewrite rsum_first.
    unfold Rdiv. rewrite (Rmult_plus_distr_r _ _ (/ INR n)). rewrite <- rsum_scal_r.
    pose proof (div2_lt n Hn).
    assert (HM : forall k, (S k <= (n - 1) / 2)%nat -> (S k <= n / 2)%nat /\ selfc n (S k) = false).
    { intros. pose proof (Nat.div_mod n 2). pose proof (Nat.mod_upper_bound n 2).
      pose proof (Nat.div_mod (n-1) 2). pose proof (Nat.mod_upper_bound (n-1) 2). split. lia.
      unfold selfc. destruct (Nat.eqb_spec (S k) 0), (Nat.eqb_spec (2 * S k) n); auto; lia. }
    rewrite <- rsum_scal_l.
    rewrite (rsum_ext ((n - 1) / 2) _ (fun k => wgt n (S k) * fst (cmul c.[S k] (E n (Z.of_nat (S k) * Z.of_nat j))) * / INR n)).
    2:{ intros k Hk. destruct (HM k) as [H1 H2]; [lia|]. rewrite Hg by lia. unfold wgt. rewrite H2. unfold Rdiv. ring. }
    rewrite Hg by lia. replace (wgt n 0) with 1 by reflexivity.
    destruct (Nat.eqb_spec (n mod 2) 0) as [He|He].
    + pose proof (even_half n He).
      assert (n / 2 = S ((n - 1) / 2))%nat as HH.
      { pose proof (Nat.div_mod (n-1) 2). pose proof (Nat.mod_upper_bound (n-1) 2). lia. }
      rewrite Hg by lia. match goal with |- _ = _ + ?z => replace z with (rsum (S ((n - 1) / 2)) (fun k => wgt n (S k) * fst (cmul c.[S k] (E n (Z.of_nat (S k) * Z.of_nat j))) * / INR n)) by (rewrite <- HH; auto) end. rewrite rsum_S.
      rewrite <- HH. replace (wgt n (n / 2)) with 1. unfold Rdiv. ring.
      unfold wgt, selfc. rewrite H0, Nat.eqb_refl, orb_true_r. auto.
    + pose proof (odd_half n He).
      assert (n / 2 = ((n - 1) / 2))%nat as HH.
      { pose proof (Nat.div_mod (n-1) 2). pose proof (Nat.mod_upper_bound (n-1) 2). lia. }
      rewrite HH. unfold Rdiv. ring.
  - intros k Hk. rewrite hermitian_at by auto. destruct (Nat.leb_spec k (n / 2)).
    + rewrite rin_at by auto. auto.
    + assert (n - k <= n / 2)%nat by (pose proof (Nat.div_mod n 2); pose proof (Nat.mod_upper_bound n 2); lia).
      rewrite rin_at by auto. unfold g.
      replace (E n (Z.of_nat k * Z.of_nat j)) with (conj (E n (Z.of_nat (n - k) * Z.of_nat j))).
      rewrite <- conj_mul. set (q := cmul _ _). destruct q. cbn. ring.
      rewrite <- E_opp. rewrite <- (E_mod n _ (Z.of_nat j)) by lia. f_equal. lia.
Qed.

Lemma r2c_bf n (c : list CR) : (1 <= n)%nat -> length c = (n / 2 + 1)%nat ->
  firstn (n / 2 + 1) (fft false n (map (fun a : R => (a, 0)) (map fst (fft true n (hermitian n (rin n c))))))
  = map (fun k => realed n k c.[k]) (seq 0 (n / 2 + 1)).
Proof.
  intros Hn Hc. pose proof (div2_lt1 n Hn).
  apply list_ext. rewrite firstn_length, fft_length, map_length, seq_length. lia.
  rewrite firstn_length, fft_length. intros k Hk. rewrite at_firstn by lia.
  etransitivity; [|symmetry; apply at_map_seq; lia]. cbn [Nat.add].
  set (h := hermitian n (rin n c)).
  replace (map (fun a : R => (a, 0)) (map fst (fft true n h))) with (fft true n h).
  - rewrite fft_at by lia.
    rewrite (csum_ext n _ (fun j => (cmul (csum n (fun l => cmul h.[l] (E n (sgn true (Z.of_nat l * Z.of_nat j)))))
                                     (E n (sgn (negb true) (Z.of_nat j * Z.of_nat k)))))).
    2:{ intros j Hj. rewrite fft_at by auto. auto. }
    rewrite (dft_inv n true (fun l => h.[l])) by lia. unfold h.
    rewrite hermitian_at by lia. destruct (Nat.leb_spec k (n / 2)); [|lia].
    rewrite rin_at by auto. rewrite <- (sc_inv n (realed n k c.[k])) at 2 by auto. unfold sc. ring.
  - rewrite map_map. rewrite <- (map_id (fft true n h)) at 1. apply map_ext_in.
    intros z Hz. unfold fft in Hz. apply in_map_iff in Hz as (j & <- & Hj). apply in_seq in Hj.
    set (z := vsum _ _). enough (snd z = 0) by (destruct z; cbn in *; subst; auto).
    unfold z. rewrite vsum_csum.
    rewrite (csum_ext n _ (fun k => cmul h.[k] (E n (Z.of_nat k * Z.of_nat j)))).
    apply c2r_im; auto. intros. rewrite twiddle_E, Nat2Z.inj_mul. auto.
Qed.

(** Backward evaluates. *)
Lemma r2c_backward_at n (c : list CR) j : (1 <= n)%nat -> length c = (n / 2 + 1)%nat -> (j < n)%nat ->
  (map fst (fft true n (hermitian n (rin n c)))).[j] =
  rsum (n / 2 + 1) (fun k => wgt n k * fst (cmul c.[k] (E n (Z.of_nat k * Z.of_nat j)))) / INR n.
Proof.
  intros. rewrite (at_map (fun z : CR => fst z) (d := dflt_num) (dB := dflt_vec)) by (rewrite fft_length; auto).
  rewrite fft_at by auto. apply c2r_re; auto.
Qed.
