(** The gradient does not overflow, and how large it can get (C59). *)
From Coq Require Import List Arith ZArith Reals Bool Lra Lia.
From Flocq Require Import Raux.
From Verif Require Import Base Num Linalg Stencils StencilProofs Cheb Compo CompoProofs Fourier AnyArith ArithSteps Rounding RndTdma RndDirichlet RndGrad RndFinite RndFourier PropRound.
Import ListNotations.
Local Open Scope R_scope.

(** What the finiteness of the derivative uses of the element type. *)
Record elem_fwd {A} {N : Num A} {T} {V : Vec A T} (fin : A -> Prop) (val : A -> R) (rnd : R -> R) (inr : R -> Prop) {I : Type} (cp : I -> T -> A) : Prop := {
  gf_0 : forall p, fin (cp p v0);
  gf_add : forall x y, (forall p, fin (cp p x) /\ fin (cp p y) /\ inr (rnd (val (cp p x) + val (cp p y)))) -> forall p, fin (cp p (vadd x y));
  gf_mul : forall x a, fin a -> (forall p, fin (cp p x) /\ inr (rnd (val (cp p x) * val a))) -> forall p, fin (cp p (vmul x a));
  gf_half : forall x, (forall p, fin (cp p x) /\ inr (2 * val (cp p x))) -> forall p, fin (cp p (vdiv x (nadd n1 n1)))
}.

Section Inst.
Context {A : Type} {N : Num A} {u eta : R} {rnd : R -> R} {zmax : Z} {inr : R -> Prop} {fin : A -> Prop} {val : A -> R}
  (FA : float_arith N u eta rnd zmax inr fin val).
Let RN := fa_rnd _ _ _ _ _ _ _ _ FA.
Let FF := fa_float _ _ _ _ _ _ _ _ FA.
Lemma inr0 : inr 0.
Proof. apply (fa_inrz _ _ _ _ _ _ _ _ FA 0). pose proof (fa_zmax _ _ _ _ _ _ _ _ FA). cbn. lia. Qed.
Lemma half_inr x : inr (2 * x) -> rnd x = x -> inr (rnd (x / 2)).
Proof.
  intros H F. eapply (fa_inr _ _ _ _ _ _ _ _ FA); [|exact H]. apply Rle_trans with (Rabs x).
  - apply (rnd_abs_le RN); auto. unfold Rdiv. rewrite Rabs_mult, (Rabs_pos_eq (/ 2)) by lra. pose proof (Rabs_pos x). lra.
  - rewrite Rabs_mult, (Rabs_pos_eq 2) by lra. pose proof (Rabs_pos x). lra.
Qed.
Lemma vecC_fwd {T} {V : Vec A T} (VC : VecC N T V) : elem_fwd fin val rnd inr (cp (VecC := VC)).
Proof.
  destruct (two_ok FA) as [F2 E2]. constructor.
  - intros p. rewrite cp_0. apply (fa_0 _ _ _ _ _ _ _ _ FA).
  - intros x y H p. rewrite cp_add. destruct (H p) as (F & G & I). apply (fa_addF _ _ _ _ _ _ _ _ FA); auto.
  - intros x a Fa H p. rewrite cp_mul. destruct (H p) as (F & I). apply (fa_mulF _ _ _ _ _ _ _ _ FA); auto.
  - intros x H p. rewrite cp_div. destruct (H p) as (F & I). apply (fa_divF _ _ _ _ _ _ _ _ FA); auto. rewrite E2; lra. rewrite E2. apply half_inr; auto.
Qed.
Lemma num_complex_fwd : (forall x, rnd x = x -> rnd (2 * x) = 2 * x) -> elem_fwd (V := vec_num_complex) fin val rnd inr re_im.
Proof.
  intros DBL. destruct (two_ok FA) as [F2 E2]. destruct (fa_0 _ _ _ _ _ _ _ _ FA) as [F0 E0]. pose proof inr0 as I0.
  assert (M0 : forall x, fin x -> fin (nmul n0 x) /\ val (nmul n0 x) = 0).
  { intros x F. assert (G : fin (nmul n0 x)). { apply (fa_mulF _ _ _ _ _ _ _ _ FA); auto. rewrite E0, Rmult_0_l, (rnd_0 RN). auto. }
    split; auto. destruct (fa_mul _ _ _ _ _ _ _ _ FA _ _ G) as (_ & _ & ->). rewrite E0, Rmult_0_l. apply (rnd_0 RN). }
  assert (M0' : forall x, fin x -> fin (nmul x n0) /\ val (nmul x n0) = 0).
  { intros x F. assert (G : fin (nmul x n0)). { apply (fa_mulF _ _ _ _ _ _ _ _ FA); auto. rewrite E0, Rmult_0_r, (rnd_0 RN). auto. }
    split; auto. destruct (fa_mul _ _ _ _ _ _ _ _ FA _ _ G) as (_ & _ & ->). rewrite E0, Rmult_0_r. apply (rnd_0 RN). }
  constructor.
  - intros []; exact F0.
  - intros x y H p. pose proof (H p) as (F & G & I). destruct p; apply (fa_addF _ _ _ _ _ _ _ _ FA); auto.
  - intros x a Fa H p. pose proof (H true) as [F I]. pose proof (H false) as [F' I']. cbn [re_im] in *. cbn [vmul vec_num_complex]. unfold cmulc. cbn [fst snd].
    assert (P : fin (nmul a (fst x)) /\ val (nmul a (fst x)) = rnd (val (fst x) * val a)).
    { assert (G : fin (nmul a (fst x))) by (apply (fa_mulF _ _ _ _ _ _ _ _ FA); auto; rewrite Rmult_comm; auto). split; auto. destruct (fa_mul _ _ _ _ _ _ _ _ FA _ _ G) as (_ & _ & ->). f_equal. ring. }
    assert (P' : fin (nmul a (snd x)) /\ val (nmul a (snd x)) = rnd (val (snd x) * val a)).
    { assert (G : fin (nmul a (snd x))) by (apply (fa_mulF _ _ _ _ _ _ _ _ FA); auto; rewrite Rmult_comm; auto). split; auto. destruct (fa_mul _ _ _ _ _ _ _ _ FA _ _ G) as (_ & _ & ->). f_equal. ring. }
    destruct P as [P E], P' as [P' E'], (M0 _ F) as [Q EQ], (M0 _ F') as [Q' EQ']. destruct p; cbn [re_im fst snd].
    + apply (fa_subF _ _ _ _ _ _ _ _ FA); auto. rewrite E, EQ', Rminus_0_r, (rn_idem _ _ _ RN). auto.
    + apply (fa_addF _ _ _ _ _ _ _ _ FA); auto. rewrite E', EQ, Rplus_0_r, (rn_idem _ _ _ RN). auto.
  - assert (I4 : (Z.abs 4 <= zmax)%Z) by (pose proof (fa_zmax _ _ _ _ _ _ _ _ FA); cbn; lia).
    assert (R4 : rnd 4 = 4). { destruct (fa_int _ _ _ _ _ _ _ _ FA 4 I4) as [F4 E4]. rewrite <- E4. auto. }
    assert (I4' : inr 4) by (apply (fa_inrz _ _ _ _ _ _ _ _ FA 4 I4)).
    assert (P1 : fin (nmul (nadd n1 n1) (nadd n1 n1)) /\ val (nmul (nadd n1 n1) (nadd n1 n1)) = 4).
    { assert (E : val (nadd n1 n1) * val (nadd n1 n1) = 4) by (rewrite E2; ring).
      assert (F : fin (nmul (nadd n1 n1) (nadd n1 n1))) by (apply (fa_mulF _ _ _ _ _ _ _ _ FA); auto; rewrite E, R4; auto).
      split; auto. destruct (fa_mul _ _ _ _ _ _ _ _ FA _ _ F) as (_ & _ & ->). rewrite E. auto. }
    destruct P1 as [P1 P4]. destruct (M0 n0 F0) as [P2 P3].
    assert (P5 : val (nmul (nadd n1 n1) (nadd n1 n1)) + val (nmul n0 n0) = 4) by (rewrite P3, P4; ring).
    assert (P6 : fin (nadd (nmul (nadd n1 n1) (nadd n1 n1)) (nmul n0 n0))).
    { apply (fa_addF _ _ _ _ _ _ _ _ FA); auto. rewrite P5, R4. auto. }
    assert (P7 : val (nadd (nmul (nadd n1 n1) (nadd n1 n1)) (nmul n0 n0)) = 4). { destruct (fa_add _ _ _ _ _ _ _ _ FA _ _ P6) as (_ & _ & ->). rewrite P5. auto. }
    intros x H p. pose proof (H true) as [F I]. pose proof (H false) as [F' I']. cbn [re_im] in *. cbn [vdiv vec_num_complex]. unfold cdivc. cbn [fst snd].
    assert (D : forall z, fin z -> inr (2 * val z) -> fin (nmul z (nadd n1 n1)) /\ val (nmul z (nadd n1 n1)) = 2 * val z).
    { intros z Fz Iz. assert (EZ : rnd (val z * val (nadd n1 n1)) = 2 * val z) by (rewrite E2, Rmult_comm; apply DBL; auto).
      assert (G : fin (nmul z (nadd n1 n1))) by (apply (fa_mulF _ _ _ _ _ _ _ _ FA); auto; rewrite EZ; auto). split; auto. destruct (fa_mul _ _ _ _ _ _ _ _ FA _ _ G) as (_ & _ & ->). auto. }
    destruct (D _ F I) as [Q E], (D _ F' I') as [Q' E'], (M0' _ F) as [W EW], (M0' _ F') as [W' EW'].
    destruct p; cbn [re_im fst snd].
    + assert (G : fin (nadd (nmul (fst x) (nadd n1 n1)) (nmul (snd x) n0))). { apply (fa_addF _ _ _ _ _ _ _ _ FA); auto. rewrite E, EW', Rplus_0_r, DBL; auto. }
      apply (fa_divF _ _ _ _ _ _ _ _ FA); auto. rewrite P7; lra. destruct (fa_add _ _ _ _ _ _ _ _ FA _ _ G) as (_ & _ & ->). rewrite E, EW', Rplus_0_r, DBL by auto. rewrite P7.
      replace (2 * val (fst x) / 4) with (val (fst x) / 2) by field. apply half_inr; auto.
    + assert (G : fin (nsub (nmul (snd x) (nadd n1 n1)) (nmul (fst x) n0))). { apply (fa_subF _ _ _ _ _ _ _ _ FA); auto. rewrite E', EW, Rminus_0_r, DBL; auto. }
      apply (fa_divF _ _ _ _ _ _ _ _ FA); auto. rewrite P7; lra. destruct (fa_sub _ _ _ _ _ _ _ _ FA _ _ G) as (_ & _ & ->). rewrite E', EW, Rminus_0_r, DBL by auto. rewrite P7.
      replace (2 * val (snd x) / 4) with (val (snd x) / 2) by field. apply half_inr; auto.
Qed.
End Inst.

(** ** Finiteness *)
Section Fl.
Context {A : Type} {N : Num A} {u eta : R} {rnd : R -> R} {zmax : Z} {inr : R -> Prop} {fin : A -> Prop} {val : A -> R}
  (FA : float_arith N u eta rnd zmax inr fin val) {T : Type} {V : Vec A T} {I : Type} {cp : I -> T -> A} (GE : grad_elem fin val rnd cp) (GF : elem_fwd fin val rnd inr cp).
Let RN := fa_rnd _ _ _ _ _ _ _ _ FA.
Let FF := fa_float _ _ _ _ _ _ _ _ FA.
Notation Xv := (gX val cp).
Lemma rnd_bound x M : Rabs x <= M -> Rabs (rnd x) <= 2 * M + eta.
Proof.
  intros H. pose proof (rn_err _ _ _ RN x) as E. pose proof (rn_u _ _ _ RN) as [U U1]. replace (rnd x) with (x + (rnd x - x)) by ring. eapply Rle_trans; [apply Rabs_triang|].
  pose proof (Rabs_pos x). assert (u * Rabs x <= / 64 * Rabs x) by (apply Rmult_le_compat_r; auto). lra.
Qed.
Lemma grad_once_fin m (a b : list T) G : (3 <= m)%nat -> (2 * Z.of_nat m <= zmax)%Z -> INR m * u <= 1 -> grad_steps m a b ->
  0 <= G -> inr (13 * (INR m * INR m) * (G + eta)) -> (forall p j, (j < m)%nat -> fin (cp p a.[j]) /\ Rabs (Xv p a j) <= G) ->
  forall p k, (k < m)%nat -> fin (cp p b.[k]) /\ Rabs (Xv p b k) <= 3 * (INR m * INR m) * (G + eta).
Proof.
  intros Hm Hz Hu HS G0 HI HA. pose proof (rn_u _ _ _ RN) as [U U1]. pose proof (rn_eta _ _ _ RN) as E0.
  assert (M3 : 3 <= INR m). { pose proof Hm as H3. apply le_INR in H3. replace (INR 3) with 3 in H3 by (cbn; ring). auto. }
  assert (MM : 3 * INR m <= INR m * INR m) by (apply Rmult_le_compat_r; lra).
  set (W := INR m * INR m) in *. assert (W9 : 9 <= W) by lra.
  set (B := W * (G + eta)). assert (B1 : 9 * (G + eta) <= B) by (unfold B; apply Rmult_le_compat_r; lra). assert (B0 : 0 <= B) by lra.
  assert (MB : INR m * (G + eta) <= B / 3). { unfold B. apply Rmult_le_reg_l with 3; [lra|]. replace (3 * (W * (G + eta) / 3)) with (W * (G + eta)) by field. rewrite <- Rmult_assoc. apply Rmult_le_compat_r; lra. }
  assert (ME : INR m * eta <= INR m * (G + eta)) by (apply Rmult_le_compat_l; lra). assert (WG : W * G <= B) by (unfold B; apply Rmult_le_compat_l; lra).
  replace (13 * W * (G + eta)) with (13 * B) in HI by (unfold B; ring). replace (3 * W * (G + eta)) with (3 * B) by (unfold B; ring).
  assert (IN : forall x, Rabs x <= 13 * B -> inr x). { intros x Hx. eapply (inr_le FA); [|exact Hx|auto]. lra. }
  (* the size of a finite result *)
  assert (SZ : forall p k, (k < m)%nat -> fin (cp p b.[k]) -> Rabs (Xv p b k) <= 3 * B).
  { intros p k Hk F. destruct (grad_once_err FA GE m a b p Hm Hz Hu HS k Hk F) as [_ HE].
    set (Q := Gop m (fun j => Rabs (Xv p a j)) k) in *.
    assert (Q1 : Rabs (Gop m (Xv p a) k) <= Q) by (apply Gop_abs; auto; intros; lra).
    assert (Q2 : Q <= W * G). { unfold Q. eapply Rle_trans; [apply (Gop_le m _ (fun _ => G)); auto|apply Gop_const; auto]. intros j [Hj _]. apply HA. lia. }
    assert (Q0 : 0 <= Q) by (eapply Rle_trans; [apply Rabs_pos|exact Q1]).
    assert (UQ : 2 * INR m * u * Q <= 2 * (W * G)). { replace (2 * INR m * u * Q) with (2 * (INR m * u * Q)) by ring. apply Rmult_le_compat_l; [lra|]. apply Rle_trans with (1 * Q); [|lra]. apply Rmult_le_compat_r; auto. }
    replace (Xv p b k) with (Gop m (Xv p a) k + (Xv p b k - Gop m (Xv p a) k)) by ring. eapply Rle_trans; [apply Rabs_triang|].
    assert (3 * (W * G) + 3 * (INR m * eta) <= 3 * B). { unfold B. assert (INR m * eta <= W * eta) by (apply Rmult_le_compat_r; lra). lra. } lra. }
  assert (TM : forall k p, (k + 1 < m)%nat -> fin (cp p (grad_term a k)) /\ Rabs (val (cp p (grad_term a k))) <= 2 * B).
  { intros k. assert (KM : (k + 1 < m)%nat -> INR (k + 1) <= INR m) by (intros; apply le_INR; lia).
    assert (P : forall p, (k + 1 < m)%nat -> Rabs (Xv p a (k + 1) * (2 * INR (k + 1))) <= 2 * (B / 3)).
    { intros p Hk. rewrite Rabs_mult, (Rabs_pos_eq (2 * INR (k + 1))) by (pose proof (pos_INR (k + 1)); lra). destruct (HA p (k + 1)%nat Hk) as [_ HG]. pose proof (Rabs_pos (Xv p a (k + 1))). pose proof (pos_INR (k + 1)). specialize (KM Hk).
      apply Rle_trans with (G * (2 * INR m)). apply Rmult_le_compat; lra. assert (INR m * G <= INR m * (G + eta)) by (apply Rmult_le_compat_l; lra). lra. }
    assert (FM : (k + 1 < m)%nat -> forall p, fin (cp p (grad_term a k))).
    { intros Hk. unfold grad_term. destruct (fac_ok FA (k + 1) ltac:(lia)) as [Ff Ef].
      refine (gf_mul _ _ _ _ _ GF _ _ Ff _). intros q. rewrite Ef. pose proof (P q Hk) as PQ. pose proof (rnd_bound _ _ PQ) as RB.
      split; [apply (HA q (k + 1)%nat Hk)|]. apply IN. unfold gX in RB. lra. }
    intros p Hk. split; auto. destruct (term_err FA GE p a k ltac:(lia) (FM Hk p)) as [_ HE]. specialize (P p Hk).
    replace (val (cp p (grad_term a k))) with (Xv p a (k + 1) * (2 * INR (k + 1)) + (val (cp p (grad_term a k)) - 2 * INR (k + 1) * Xv p a (k + 1))) by ring. eapply Rle_trans; [apply Rabs_triang|].
    assert (UU : u * (2 * INR (k + 1) * Rabs (Xv p a (k + 1))) <= / 64 * (2 * (B / 3))). { apply Rmult_le_compat; auto. apply Rmult_le_pos; [pose proof (pos_INR (k + 1)); lra|apply Rabs_pos]. eapply Rle_trans; [|exact P]. rewrite Rabs_mult, (Rabs_pos_eq (2 * INR (k + 1))) by (pose proof (pos_INR (k + 1)); lra). lra. }
    lra. }
  assert (FN : forall q k, (m - k = q)%nat -> (1 <= k < m)%nat -> forall p, fin (cp p b.[k])).
  { destruct HS as (Lb & S1 & S2 & S3 & S0). intros q. induction q as [q IH] using lt_wf_ind. intros k Eq Hk. destruct (Nat.eq_dec k (m - 1)) as [->|]. rewrite S1. apply (gf_0 _ _ _ _ _ GF).
    destruct (Nat.eq_dec k (m - 2)) as [->|]. rewrite S2. intros p. apply TM. lia.
    rewrite S3 by lia. apply (gf_add _ _ _ _ _ GF). intros p. destruct (TM k p ltac:(lia)) as [F1 T1]. pose proof (IH (m - (k + 2))%nat ltac:(lia) (k + 2)%nat eq_refl ltac:(lia) p) as F2. split; auto. split; auto.
    pose proof (SZ p (k + 2)%nat ltac:(lia) F2) as T2. apply IN. eapply Rle_trans; [apply (rnd_bound _ (2 * B + 3 * B))|lra]. eapply Rle_trans; [apply Rabs_triang|]. unfold gX in T2. lra. }
  assert (F0 : forall p, fin (cp p b.[0])).
  { pose proof HS as (Lb & S1 & S2 & S3 & S0). rewrite S0. assert (F2 : forall p, fin (cp p b.[2])) by (apply (FN (m - 2)%nat); lia).
    assert (FH : forall p, fin (cp p (vdiv b.[2] (nadd n1 n1)))). { apply (gf_half _ _ _ _ _ GF). intros p. split; auto. apply IN. rewrite Rabs_mult, (Rabs_pos_eq 2) by lra. pose proof (SZ p 2%nat ltac:(lia) (F2 p)) as T2. unfold gX in T2. lra. }
    apply (gf_add _ _ _ _ _ GF). intros p. destruct (HA p 1%nat ltac:(lia)) as [F1 T1]. split; auto. split; auto. destruct (ge_half _ _ _ _ GE p _ (FH p)) as [_ EH]. rewrite EH.
    assert (TH : Rabs (rnd (val (cp p b.[2]) / 2)) <= 3 * B). { eapply Rle_trans; [|exact (SZ p 2%nat ltac:(lia) (F2 p))]. unfold gX. apply (rnd_abs_le RN); [|apply FF; auto]. unfold Rdiv. rewrite Rabs_mult, (Rabs_pos_eq (/ 2)) by lra. pose proof (Rabs_pos (val (cp p b.[2]))). lra. }
    apply IN. eapply Rle_trans; [apply (rnd_bound _ (B + 3 * B))|lra]. eapply Rle_trans; [apply Rabs_triang|]. unfold gX in T1. lra. }
  intros p k Hk. assert (F : fin (cp p b.[k])). { destruct k; auto. apply (FN (m - S k)%nat); lia. } split; auto.
Qed.

Lemma grad_fin n (a o : list T) d G : (3 <= n)%nat -> (2 * Z.of_nat n <= zmax)%Z -> INR n * u <= 1 -> length a = n -> length o = n ->
  0 <= G -> inr (4 * (4 * (INR n * INR n)) ^ d * (G + eta)) -> (forall p j, (j < n)%nat -> fin (cp p a.[j]) /\ Rabs (Xv p a j) <= G) ->
  exists b, cheb_gradient (mk_cheb n n) a o d = Ok b /\ length b = n /\ forall p k, (k < n)%nat -> fin (cp p b.[k]) /\ Rabs (Xv p b k) + eta <= (4 * (INR n * INR n)) ^ d * (G + eta).
Proof.
  intros Hn Hz Hu La Lo G0 HI HA. pose proof (rn_eta _ _ _ RN) as E0.
  assert (M3 : 3 <= INR n). { pose proof Hn as H3. apply le_INR in H3. replace (INR 3) with 3 in H3 by (cbn; ring). auto. }
  assert (MM : 9 <= INR n * INR n) by (replace 9 with (3 * 3) by ring; apply Rmult_le_compat; lra).
  set (W := 4 * (INR n * INR n)) in *. assert (W1 : 36 <= W) by (unfold W; lra).
  induction d as [|d IH].
  - exists a. rewrite cheb_gradient_0 by auto. split; auto. split; auto. intros p k Hk. destruct (HA p k Hk). split; auto. cbn. lra.
  - assert (WD : 1 <= W ^ d) by (apply pow_R1_Rle; lra). assert (Q0 : 0 <= W ^ d * (G + eta)) by (apply Rmult_le_pos; lra).
    destruct IH as (b & Eb & Lb & Hb). { eapply (inr_le FA); [| |exact HI]. cbn [pow]. apply Rmult_le_pos; [|lra]. apply Rmult_le_pos; [lra|]. apply Rmult_le_pos; lra.
      rewrite Rabs_pos_eq by lra. cbn [pow]. replace (4 * (W * W ^ d) * (G + eta)) with (4 * W * (W ^ d * (G + eta))) by ring. replace (4 * W ^ d * (G + eta)) with (4 * (W ^ d * (G + eta))) by ring.
      apply Rmult_le_compat_r; lra. }
    pose proof (grad_once_steps n b Hn Lb) as WS. destruct (grad_once n b) as [c| |] eqn:Ec; cbn [wp] in WS; try contradiction.
    assert (L0 : exists G', G' = W ^ d * (G + eta) - eta) by eauto. destruct L0 as [G' EG'].
    assert (G'0 : 0 <= G'). { subst G'. assert (eta <= W ^ d * (G + eta)) by (apply Rle_trans with (1 * (G + eta)); [lra|apply Rmult_le_compat_r; lra]). lra. }
    exists c. rewrite cheb_gradient_S, Eb. cbn [bind c_m]. split; auto. split; [apply WS|].
    assert (HG : G' + eta = W ^ d * (G + eta)) by lra.
    intros p k Hk. destruct (grad_once_fin n b c G' Hn Hz Hu WS G'0) with (p := p) (k := k) as [F S]; auto.
    + rewrite HG. eapply (inr_le FA); [| |exact HI]. cbn [pow]. apply Rmult_le_pos; [|lra]. apply Rmult_le_pos; [lra|]. apply Rmult_le_pos; lra.
      rewrite Rabs_pos_eq by (apply Rmult_le_pos; [lra|auto]). cbn [pow]. replace (4 * (W * W ^ d) * (G + eta)) with (4 * W * (W ^ d * (G + eta))) by ring. apply Rmult_le_compat_r; auto. unfold W. lra.
    + intros q j Hj. destruct (Hb q j Hj). split; auto. lra.
    + split; auto. cbn [pow]. rewrite HG in S. replace (W * W ^ d * (G + eta)) with (W * (W ^ d * (G + eta))) by ring. set (Z := W ^ d * (G + eta)) in *.
      assert (eta <= Z). { unfold Z. apply Rle_trans with (1 * (G + eta)); [lra|apply Rmult_le_compat_r; lra]. }
      assert (9 * Z <= INR n * INR n * Z) by (apply Rmult_le_compat_r; lra). unfold W. lra.
Qed.
End Fl.
