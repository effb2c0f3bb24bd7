(** FourierFacts: complex sums, roots of unity and the discrete Fourier transform. *)
From Coq Require Import List Arith ZArith Reals Bool Lra Lia Ring.
From Verif Require Import Base Num Linalg Cheb Fourier.
Import ListNotations.
Local Open Scope R_scope.

Notation CR := (cplx R).

Ltac cx := cbv [cadd csub copp cmul cdiv conj c0 c1 vadd vsub vmul vdiv v0 vec_cplx vec_self
                 nadd nsub nmul nopp ndiv n0 n1 nofZ num_R fst snd]; f_equal; try ring.

Lemma C_ring : ring_theory (c0 (A:=R)) c1 cadd cmul csub copp eq.
Proof. constructor; intros; repeat match goal with x : cplx R |- _ => destruct x end; cx. Qed.
Add Ring Cring : C_ring.

Lemma ceq (x y : CR) : fst x = fst y -> snd x = snd y -> x = y.
Proof. destruct x, y; simpl; congruence. Qed.

Definition csum (n : nat) (f : nat -> CR) : CR := (rsum n (fun k => fst (f k)), rsum n (fun k => snd (f k))).

Lemma vsum_csum n f : vsum (V := vec_cplx (A := R)) n f = csum n f.
Proof. induction n; simpl; auto. rewrite IHn. unfold csum. simpl. auto. Qed.

Lemma csum_S n f : csum (S n) f = cadd (csum n f) (f n).
Proof. reflexivity. Qed.
Lemma csum_ext n f g : (forall k, (k < n)%nat -> f k = g k) -> csum n f = csum n g.
Proof. intros. unfold csum. f_equal; apply rsum_ext; intros; rewrite H; auto. Qed.
Lemma csum_0 n f : (forall k, (k < n)%nat -> f k = c0) -> csum n f = c0.
Proof. intros. apply ceq; simpl; apply rsum_0; intros; rewrite H; auto. Qed.
Lemma csum_add n f g : csum n (fun k => cadd (f k) (g k)) = cadd (csum n f) (csum n g).
Proof. unfold csum. simpl. rewrite !rsum_add. auto. Qed.
Lemma csum_scal_l n c f : csum n (fun k => cmul c (f k)) = cmul c (csum n f).
Proof. induction n. unfold csum; simpl rsum; destruct c; cx. rewrite !csum_S, IHn. ring. Qed.
Lemma csum_scal_r n c f : csum n (fun k => cmul (f k) c) = cmul (csum n f) c.
Proof. induction n. unfold csum; simpl rsum; destruct c; cx. rewrite !csum_S, IHn. ring. Qed.
Lemma csum_swap n m (f : nat -> nat -> CR) :
  csum n (fun i => csum m (fun j => f i j)) = csum m (fun j => csum n (fun i => f i j)).
Proof. unfold csum; simpl. f_equal; apply rsum_swap. Qed.
Lemma csum_delta n i f :
  (i < n)%nat -> (forall k, (k < n)%nat -> k <> i -> f k = c0) -> csum n f = f i.
Proof.
  intros. unfold csum. apply ceq; simpl; apply (rsum_delta n i); auto; intros; rewrite H0; auto.
Qed.
Lemma csum_conj n f : conj (csum n f) = csum n (fun k => conj (f k)).
Proof. unfold csum, conj; simpl. f_equal. rewrite rsum_opp. auto. Qed.
Lemma csum_first n f : csum (S n) f = cadd (f 0%nat) (csum n (fun k => f (S k))).
Proof. unfold csum. rewrite !rsum_first. auto. Qed.
Lemma csum_rev n f : csum n f = csum n (fun k => f (n - 1 - k)%nat).
Proof. unfold csum. f_equal; apply rsum_rev. Qed.

Lemma conj_mul (x y : CR) : conj (cmul x y) = cmul (conj x) (conj y).
Proof. destruct x, y; cx. Qed.
Lemma conj_add (x y : CR) : conj (cadd x y) = cadd (conj x) (conj y).
Proof. destruct x, y; cx. Qed.
Lemma conj_conj x : conj (conj x) = (x : CR).
Proof. destruct x; cx. Qed.

Lemma cmul_0 (x y : CR) : cmul x y = c0 -> x = c0 \/ y = c0.
Proof.
  destruct x as [a b], y as [c d]. cbv [cmul c0 nmul nsub nadd n0 num_R fst snd]. intros H.
  injection H as H1 H2.
  destruct (Req_dec (a * a + b * b) 0) as [E|E].
  - left. assert (a = 0) by nra. assert (b = 0) by nra. subst; auto.
  - right. assert (H3 : (a*a+b*b)*c = 0) by (replace ((a*a+b*b)*c) with (a*(a*c-b*d) + b*(a*d+b*c)) by ring; rewrite H1, H2; ring).
    assert (H4 : (a*a+b*b)*d = 0) by (replace ((a*a+b*b)*d) with (a*(a*d+b*c) - b*(a*c-b*d)) by ring; rewrite H1, H2; ring).
    f_equal; [destruct (Rmult_integral _ _ H3)|destruct (Rmult_integral _ _ H4)]; tauto.
Qed.

(** ** e^{2 pi i z / n} *)
Definition arg (n : nat) (z : Z) : R := 2 * PI * IZR z / INR n.
Definition E (n : nat) (z : Z) : CR := (cos (arg n z), sin (arg n z)).

Lemma E_add n a b : E n (a + b) = cmul (E n a) (E n b).
Proof.
  unfold E. assert (arg n (a + b) = arg n a + arg n b) as ->
    by (unfold arg; rewrite plus_IZR; unfold Rdiv; ring).
  rewrite cos_plus, sin_plus. cx.
Qed.
Lemma E_0 n : E n 0 = c1.
Proof. unfold E, arg. replace (2 * PI * 0 / INR n) with 0 by (unfold Rdiv; ring). rewrite cos_0, sin_0. auto. Qed.
Lemma E_opp n a : E n (- a) = conj (E n a).
Proof.
  unfold E. assert (arg n (- a) = - arg n a) as -> by (unfold arg; rewrite opp_IZR; unfold Rdiv; ring).
  rewrite cos_neg, sin_neg. auto.
Qed.

Lemma cos_2kpi (k : Z) : cos (2 * PI * IZR k) = 1.
Proof.
  replace (2 * PI * IZR k) with (2 * (IZR k * PI)) by ring.
  rewrite cos_2a_sin. rewrite (sin_eq_0_1 (IZR k * PI)) by (exists k; auto). ring.
Qed.
Lemma sin_2kpi (k : Z) : sin (2 * PI * IZR k) = 0.
Proof. apply sin_eq_0_1. exists (2 * k)%Z. rewrite mult_IZR. ring. Qed.

Lemma E_period n q : (0 < n)%nat -> E n (Z.of_nat n * q) = c1.
Proof.
  intros. unfold E, arg. rewrite mult_IZR, <- INR_IZR_INZ.
  replace (2 * PI * (INR n * IZR q) / INR n) with (2 * PI * IZR q)
    by (field; apply not_0_INR; lia).
  rewrite cos_2kpi, sin_2kpi. auto.
Qed.
Lemma E_mod n a q : (0 < n)%nat -> E n (a + Z.of_nat n * q) = E n a.
Proof. intros. rewrite E_add, E_period by auto. ring. Qed.

Lemma E_1_div n d : (0 < n)%nat -> E n d = c1 -> (Z.of_nat n | d)%Z.
Proof.
  intros Hn H. unfold E, c1 in H. cbn in H. injection H as H1 H2.
  assert (Hs : sin (arg n d / 2) = 0).
  { replace (arg n d) with (2 * (arg n d / 2)) in H1 by field.
    rewrite cos_2a_sin in H1. nra. }
  destruct (sin_eq_0_0 _ Hs) as [k Hk]. exists k.
  unfold arg in Hk.
  assert (INR n <> 0) by (apply not_0_INR; lia).
  assert (IZR d = IZR k * INR n).
  { apply (Rmult_eq_reg_l PI); [|apply PI_neq0].
    replace (PI * IZR d) with ((2 * PI * IZR d / INR n / 2) * INR n) by (field; auto).
    rewrite Hk. ring. }
  apply eq_IZR. rewrite mult_IZR, <- INR_IZR_INZ. auto.
Qed.

Lemma E_geom n d m :
  cmul (csub (E n d) c1) (csum m (fun j => E n (Z.of_nat j * d))) = csub (E n (Z.of_nat m * d)) c1.
Proof.
  induction m.
  - cbn [csum rsum Z.of_nat Z.mul]. rewrite E_0. replace (csum 0 _) with (c0 : CR) by reflexivity. ring.
  - rewrite csum_S. rewrite Nat2Z.inj_succ. unfold Z.succ. rewrite Z.mul_add_distr_r, Z.mul_1_l, E_add.
    transitivity (cadd (cmul (csub (E n d) c1) (csum m (fun j => E n (Z.of_nat j * d))))
                       (cmul (csub (E n d) c1) (E n (Z.of_nat m * d)))); [ring|].
    rewrite IHm. ring.
Qed.

Lemma E_orth n d : (0 < n)%nat -> ~ (Z.of_nat n | d)%Z ->
  csum n (fun j => E n (Z.of_nat j * d)) = c0.
Proof.
  intros Hn H. pose proof (E_geom n d n) as G. rewrite E_period in G by auto.
  replace (csub c1 c1) with (c0 : CR) in G by ring.
  destruct (cmul_0 _ _ G) as [G'|]; auto.
  exfalso. apply H, E_1_div; auto.
  transitivity (cadd (csub (E n d) c1) c1); [ring|]. rewrite G'. ring.
Qed.
Lemma csum_const n (c : CR) : csum n (fun _ => c) = cmul (INR n, 0) c.
Proof. unfold csum. rewrite !rsum_const. destruct c; cx. Qed.
Lemma E_orth_1 n d : (0 < n)%nat -> (Z.of_nat n | d)%Z ->
  csum n (fun j => E n (Z.of_nat j * d)) = (INR n, 0).
Proof.
  intros Hn [q ->].
  rewrite (csum_ext _ _ (fun _ => c1)).
  rewrite csum_const. cx.
  intros. replace (Z.of_nat k * (q * Z.of_nat n))%Z with (Z.of_nat n * (Z.of_nat k * q))%Z by ring.
  apply E_period; auto.
Qed.

Lemma ndiv_small n (a b : nat) : (a < n)%nat -> (b < n)%nat -> (Z.of_nat n | Z.of_nat a - Z.of_nat b)%Z -> a = b.
Proof.
  intros Ha Hb [q H].
  assert (q = 0)%Z by nia. subst. lia.
Qed.

(** ** The model's transforms as sums *)
Lemma twiddle_E inv n p : twiddle inv n p = E n (if inv then Z.of_nat p else - Z.of_nat p).
Proof.
  unfold twiddle. cbn. unfold nofN. cbn.
  replace (2 * PI * IZR (Z.of_nat p) / IZR (Z.of_nat n)) with (arg n (Z.of_nat p))
    by (unfold arg; rewrite (INR_IZR_INZ n); auto).
  destruct inv. reflexivity. rewrite E_opp. reflexivity.
Qed.

Lemma fft_length inv n (x : list CR) : length (fft inv n x) = n.
Proof. unfold fft. rewrite map_length, seq_length. auto. Qed.

Definition sgn (inv : bool) (z : Z) : Z := if inv then z else (- z)%Z.

Lemma fft_at inv n (x : list CR) k : (k < n)%nat ->
  (fft inv n x).[k] = csum n (fun j => cmul x.[j] (E n (sgn inv (Z.of_nat j * Z.of_nat k)))).
Proof.
  intros. unfold fft. etransitivity; [apply at_map_seq; auto|].
  rewrite vsum_csum. apply csum_ext. intros. rewrite twiddle_E, Nat2Z.inj_mul. auto.
Qed.

(** Fourier inversion. *)
Lemma dft_inv n s (f : nat -> CR) k : (k < n)%nat ->
  csum n (fun j => cmul (csum n (fun l => cmul (f l) (E n (sgn s (Z.of_nat l * Z.of_nat j)))))
                        (E n (sgn (negb s) (Z.of_nat j * Z.of_nat k))))
  = cmul (INR n, 0) (f k).
Proof.
  intros Hk.
  rewrite (csum_ext n _ (fun j => csum n (fun l => cmul (f l) (E n (Z.of_nat j * (sgn s (Z.of_nat l - Z.of_nat k))))))).
  - rewrite csum_swap.
    rewrite (csum_delta n k); auto.
    + rewrite csum_scal_l. rewrite E_orth_1 by (try lia; exists 0%Z; unfold sgn; destruct s; lia). ring.
    + intros l Hl Hne. rewrite csum_scal_l. rewrite E_orth; [ring|lia|].
      intros D. apply Hne. apply (ndiv_small n); auto.
      unfold sgn in D. destruct s; [exact D|]. rewrite Z.opp_involutive in D || (apply (Z.divide_opp_r _ (- (Z.of_nat l - Z.of_nat k))) in D; rewrite Z.opp_involutive in D). exact D.
  - intros j Hj. rewrite <- csum_scal_r. apply csum_ext. intros l Hl.
    replace (E n (Z.of_nat j * sgn s (Z.of_nat l - Z.of_nat k)))
      with (cmul (E n (sgn s (Z.of_nat l * Z.of_nat j))) (E n (sgn (negb s) (Z.of_nat j * Z.of_nat k)))).
    ring. rewrite <- E_add. f_equal. unfold sgn; destruct s; simpl; ring.
Qed.
