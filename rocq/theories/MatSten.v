(** The stencil matrices in f64: every entry is the exact one, correctly
    rounded (sizes up to 2^17, for which numerators and denominators are
    exact). *)
From Coq Require Import List Arith Lia Bool ZArith Reals Lra.
From Flocq Require Import Core BinarySingleNaN.
From Verif Require Import Base Num Linalg LinalgProofs Stencils Cheb Compo FourierF64 Rounding MatRel MatF64 MatCheb.
Import ListNotations.
Local Open Scope R_scope.
#[local] Instance P53s : Prec_gt_0 53 := eq_refl.

(** the integer z, exactly, in both arithmetics *)
Definition exi (a : f64) (x : R) (z : Z) : Prop := f64_fin a /\ f64_val a = IZR z /\ x = IZR z.
Lemma exi_int z : (Z.abs z <= 2 ^ 53)%Z -> exi (nofZ z) (nofZ z) z.
Proof. intros H. destruct (fa_int _ _ _ _ _ _ _ _ f64_float_arith z H). split; auto. Qed.
Lemma exi_one : exi n1 n1 1.
Proof. apply (exi_int 1). discriminate. Qed.
Lemma rnd_int z : (Z.abs z <= 2 ^ 53)%Z -> rnd64 (IZR z) = IZR z /\ Rabs (IZR z) < bpow radix2 1024.
Proof. intros H. destruct (exa_format z 0 H ltac:(lia)) as [E B]. change (bpow radix2 0) with 1 in *. rewrite Rmult_1_r in *. auto. Qed.
Lemma exi_add a x z b y w : exi a x z -> exi b y w -> (Z.abs (z + w) <= 2 ^ 53)%Z -> exi (nadd a b) (nadd x y) (z + w).
Proof.
  intros (F & V & X) (F' & V' & X') H. pose proof f64_float_arith as FA. destruct (rnd_int _ H) as [E B].
  assert (P : f64_val a + f64_val b = IZR (z + w)) by (rewrite V, V', plus_IZR; auto).
  assert (Fr : f64_fin (nadd a b)) by (apply (fa_addF _ _ _ _ _ _ _ _ FA); auto; rewrite P, E; exact B).
  destruct (fa_add _ _ _ _ _ _ _ _ FA _ _ Fr) as (_ & _ & W). split; auto. split. rewrite W, P, E; auto. subst. rewrite plus_IZR. reflexivity.
Qed.
Lemma exi_sub a x z b y w : exi a x z -> exi b y w -> (Z.abs (z - w) <= 2 ^ 53)%Z -> exi (nsub a b) (nsub x y) (z - w).
Proof.
  intros (F & V & X) (F' & V' & X') H. pose proof f64_float_arith as FA. destruct (rnd_int _ H) as [E B].
  assert (P : f64_val a - f64_val b = IZR (z - w)) by (rewrite V, V', minus_IZR; auto).
  assert (Fr : f64_fin (nsub a b)) by (apply (fa_subF _ _ _ _ _ _ _ _ FA); auto; rewrite P, E; exact B).
  destruct (fa_sub _ _ _ _ _ _ _ _ FA _ _ Fr) as (_ & _ & W). split; auto. split. rewrite W, P, E; auto. subst. rewrite minus_IZR. reflexivity.
Qed.
Lemma exi_mul a x z b y w : exi a x z -> exi b y w -> (Z.abs (z * w) <= 2 ^ 53)%Z -> exi (nmul a b) (nmul x y) (z * w).
Proof.
  intros (F & V & X) (F' & V' & X') H. pose proof f64_float_arith as FA. destruct (rnd_int _ H) as [E B].
  assert (P : f64_val a * f64_val b = IZR (z * w)) by (rewrite V, V', mult_IZR; auto).
  assert (Fr : f64_fin (nmul a b)) by (apply (fa_mulF _ _ _ _ _ _ _ _ FA); auto; rewrite P, E; exact B).
  destruct (fa_mul _ _ _ _ _ _ _ _ FA _ _ Fr) as (_ & _ & W). split; auto. split. rewrite W, P, E; auto. subst. rewrite mult_IZR. reflexivity.
Qed.
Lemma exi_opp a x z : exi a x z -> exi (nopp a) (nopp x) (- z).
Proof.
  intros (F & V & X). destruct (fa_opp _ _ _ _ _ _ _ _ f64_float_arith a) as [P W]. split. apply P; auto.
  rewrite W, V, X, opp_IZR. split; reflexivity.
Qed.

(** the exact value, correctly rounded *)
Definition crnd (a : f64) (x : R) : Prop := f64_fin a /\ f64_val a = rnd64 x /\ moderate x.
Lemma crnd_exi a x z : exi a x z -> (Z.abs z <= 2 ^ 53)%Z -> crnd a x.
Proof.
  intros (F & V & X) Hz. split; auto. split; [|rewrite X; replace (IZR z) with (IZR z / IZR 1) by field; apply moderate_quot; lia]. rewrite X, <- V. symmetry. apply (fa_float _ _ _ _ _ _ _ _ f64_float_arith). auto.
Qed.
Lemma crnd_quot a x z b y w : exi a x z -> exi b y w -> (Z.abs z <= 2 ^ 53)%Z -> (0 < Z.abs w <= 2 ^ 53)%Z -> crnd (ndiv a b) (ndiv x y).
Proof.
  intros (F & V & X) (F' & V' & X') Hz Hw'. assert (Hw : w <> 0%Z) by lia. pose proof f64_float_arith as FA.
  assert (Nb : f64_val b <> 0) by (rewrite V'; apply not_0_IZR; auto).
  assert (S : Rabs (rnd64 (f64_val a / f64_val b)) <= Rabs (f64_val a)).
  { unfold ieee_rnd. apply abs_round_le_generic; auto with typeclass_instances.
    apply generic_format_abs. apply val_format.
    rewrite Rabs_div by auto. unfold Rdiv. rewrite <- (Rmult_1_r (Rabs (f64_val a))) at 2. apply Rmult_le_compat_l. apply Rabs_pos.
    rewrite <- Rinv_1. apply Rinv_le. lra. rewrite V', <- abs_IZR. apply IZR_le. lia. }
  assert (Fr : f64_fin (ndiv a b)).
  { apply (fa_divF _ _ _ _ _ _ _ _ FA); auto. unfold ieee_inr. eapply Rle_lt_trans. exact S.
    apply (abs_B2R_lt_emax 53 1024 a). }
  destruct (fa_div _ _ _ _ _ _ _ _ FA _ _ Fr F' Nb) as [_ W]. split; auto. split. rewrite W, V, V', X, X'. reflexivity.
  rewrite X, X'. apply moderate_quot; lia.
Qed.

Section Low.
Variable k : nat.
Hypothesis Hk : (Z.of_nat k <= 2 ^ 17 - 3)%Z.
Ltac go := try apply exi_one; try (apply exi_int; nia); 
  first [ eapply exi_add; [go|go|nia] | eapply exi_sub; [go|go|nia] | eapply exi_mul; [go|go|nia] | eapply exi_opp; go | idtac ].
Lemma neumann_low2_f64 : crnd (neumann_low2 (A := f64) k) (neumann_low2 (A := R) k).
Proof. unfold neumann_low2, nofN. eapply crnd_quot. go. go. nia. nia. Qed.
Lemma dn_low1_f64 : crnd (dn_low1 (A := f64) k) (dn_low1 (A := R) k).
Proof. unfold dn_low1, nofN. cbv zeta. eapply crnd_quot. go. go. nia. nia. Qed.
Lemma dn_low2_f64 : crnd (dn_low2 (A := f64) k) (dn_low2 (A := R) k).
Proof. unfold dn_low2, nofN. cbv zeta. eapply crnd_quot. go. go. nia. nia. Qed.
Lemma ba_low2_f64 : crnd (ba_low2 (A := f64) k) (ba_low2 (A := R) k).
Proof. unfold ba_low2, nofN. cbv zeta. eapply crnd_quot. go. go. nia. nia. Qed.
Lemma ba_low4_f64 : crnd (ba_low4 (A := f64) k) (ba_low4 (A := R) k).
Proof. unfold ba_low4, nofN. cbv zeta. eapply crnd_quot. go. go. nia. nia. Qed.
Lemma bb_low2_f64 : crnd (bb_low2 (A := f64) k) (bb_low2 (A := R) k).
Proof. unfold bb_low2, nofN. cbv zeta. eapply crnd_quot. go. go. nia. nia. Qed.
Lemma bb_low4_f64 : crnd (bb_low4 (A := f64) k) (bb_low4 (A := R) k).
Proof. unfold bb_low4, nofN. cbv zeta. eapply crnd_quot. go. go. nia. nia. Qed.
End Low.

(** ** The matrices *)
Lemma rrel_lift2 {A B C A' B' C'} (QA : A -> A' -> Prop) (QB : B -> B' -> Prop) (QC : C -> C' -> Prop) f f' a a' b b' :
  rrel QA a a' -> rrel QB b b' -> (forall x x' y y', QA x x' -> QB y y' -> QC (f x y) (f' x' y')) ->
  rrel QC (lift2 f a b) (lift2 f' a' b').
Proof. destruct a, a', b, b'; cbn; auto; tauto. Qed.
Lemma rrel_st {A B} (Q : A -> B -> Prop) md l l' i e e' : Forall2 Q l l' -> rrel Q e e' -> rrel (Forall2 Q) (st md l i e) (st md l' i e').
Proof. intros. unfold st. eapply rrel_bind; eauto. intros. apply rrel_wr; auto. Qed.
Lemma rrel_fill {A B} (Q : A -> B -> Prop) l l' e e' : Forall2 Q l l' -> (forall i, (i < length l')%nat -> rrel Q (e i) (e' i)) ->
  rrel (Forall2 Q) (fill l e) (fill l' e').
Proof.
  intros H He. unfold fill. rewrite (Forall2_length H). apply rrel_for_each; auto. intros i s s' Hi Hs. apply in_seq in Hi.
  apply rrel_st; auto. apply He. lia.
Qed.

(** nothing is known of the related numbers *)
Definition anyrel {A B} (_ : A) (_ : B) : Prop := True.
Lemma any_list {A B} (Q : A -> B -> Prop) l l' : Forall2 Q l l' -> Forall2 anyrel l l'.
Proof. induction 1; constructor; auto. exact I. Qed.
Lemma any_rd {A B} (Q : A -> B -> Prop) md l l' i : Forall2 Q l l' -> rrel anyrel (rd md l i) (rd md l' i).
Proof. intros H. eapply rrel_mono. apply rrel_rd, H. intros; exact I. Qed.
Lemma any_lift2 {A B C A' B' C'} (f : A -> B -> C) (f' : A' -> B' -> C') a a' b b' :
  rrel anyrel a a' -> rrel anyrel b b' -> rrel anyrel (lift2 f a b) (lift2 f' a' b').
Proof. intros H H'. eapply rrel_lift2. exact H. exact H'. intros; exact I. Qed.
Lemma any_fill {A B} (x : A) (y : B) n e e' : (forall i, (i < n)%nat -> rrel anyrel (e i) (e' i)) ->
  rrel (Forall2 anyrel) (fill (repeat x n) e) (fill (repeat y n) e').
Proof. intros H. apply rrel_fill. apply repeat_rel. exact I. rewrite repeat_length. exact H. Qed.

Definition s2rel (s : st2 f64) (s' : st2 R) : Prop := Forall2 crnd (d2_diag s) (d2_diag s') /\ Forall2 crnd (d2_low2 s) (d2_low2 s').
Definition s3rel (s : st3 f64) (s' : st3 R) : Prop :=
  Forall2 crnd (d3_diag s) (d3_diag s') /\ Forall2 crnd (d3_lowa s) (d3_lowa s') /\ Forall2 crnd (d3_lowb s) (d3_lowb s').

Ltac anyt := repeat first [ apply any_lift2 | eapply any_rd; eassumption ].
Lemma st2_new_rel d d' l l' : Forall2 crnd d d' -> Forall2 crnd l l' -> rrel s2rel (st2_new d l) (st2_new d' l').
Proof.
  intros Hd Hl. unfold st2_new. eapply rrel_bind with (Q := anyrel).
  - unfold get_tdma_diagonals. rewrite (Forall2_length Hd). apply rrel_bind_same. intros m2 _.
    eapply rrel_bind. apply any_fill. intros; anyt. intros. eapply rrel_bind. apply any_fill. intros; anyt. intros. exact I.
  - intros p p' _. split; auto.
Qed.
Lemma st3_new_rel d d' l l' k k' : Forall2 crnd d d' -> Forall2 crnd l l' -> Forall2 crnd k k' -> rrel s3rel (st3_new d l k) (st3_new d' l' k').
Proof.
  intros Hd Hl Hk. unfold st3_new. eapply rrel_bind with (Q := anyrel).
  - unfold get_fdma_diagonals. rewrite (Forall2_length Hd). apply rrel_bind_same. intros m1 _. apply rrel_bind_same. intros m2 _.
    eapply rrel_bind. apply any_fill. intros; anyt. intros. eapply rrel_bind. apply any_fill. intros; anyt. intros.
    eapply rrel_bind. apply any_fill. intros; anyt. intros. exact I.
  - intros [[? ?] ?] [[? ?] ?] _. split; auto.
Qed.
Lemma st4_new_rel d d' l l' k k' : Forall2 crnd d d' -> Forall2 crnd l l' -> Forall2 crnd k k' -> rrel s3rel (st4_new d l k) (st4_new d' l' k').
Proof.
  intros Hd Hl Hk. unfold st4_new. eapply rrel_bind with (Q := anyrel).
  - unfold get_fdma_diagonals2. rewrite (Forall2_length Hd). apply rrel_bind_same. intros m1 _. apply rrel_bind_same. intros m2 _.
    eapply rrel_bind. apply any_fill. intros; anyt. intros. eapply rrel_bind. apply any_fill. intros; anyt. intros.
    eapply rrel_bind. apply any_fill. intros; anyt. intros. exact I.
  - intros [[? ?] ?] [[? ?] ?] _. split; auto.
Qed.

(** the same kind, m unknowns, related diagonals *)
Definition strel (k : skind) (m : nat) (s : stencil f64) (s' : stencil R) : Prop :=
  match k, s, s' with
  | KDirichlet, Dirichlet h, Dirichlet h' | KNeumann, Neumann h, Neumann h' => s2rel h h' /\ length (d2_diag h') = m
  | KDirichletNeumann, DirichletNeumann h, DirichletNeumann h' => s3rel h h' /\ length (d3_diag h') = m
  | KBiHarmonicA, BiHarmonicA h, BiHarmonicA h' | KBiHarmonicB, BiHarmonicB h, BiHarmonicB h' => s3rel h h' /\ length (d3_diag h') = m
  | _, _, _ => False
  end.

Lemma crnd_0 : crnd n0 0.
Proof. split; [reflexivity|]. split. rewrite rnd64_0. reflexivity. left; reflexivity. Qed.

Lemma fill_low m (e : nat -> f64) (e' : nat -> R) : (forall k, (k < m)%nat -> crnd (e k) (e' k)) ->
  rrel (Forall2 crnd) (fill (repeat n0 m) (fun k => Ok (e k))) (fill (repeat n0 m) (fun k => Ok (e' k))).
Proof. intros H. apply rrel_fill. apply repeat_rel, crnd_0. rewrite repeat_length. intros. apply rrel_Ok, H. auto. Qed.

Lemma rrel_len2 d d' l l' : rrel s2rel (st2_new d l) (st2_new d' l') -> rrel (fun h h' => s2rel h h' /\ length (d2_diag h') = length d') (st2_new (A := f64) d l) (st2_new (A := R) d' l').
Proof.
  unfold st2_new. destruct (get_tdma_diagonals d l), (get_tdma_diagonals d' l'); cbn; auto.
Qed.
Lemma rrel_len3 d d' l l' k k' : rrel s3rel (st3_new d l k) (st3_new d' l' k') -> rrel (fun h h' => s3rel h h' /\ length (d3_diag h') = length d') (st3_new (A := f64) d l k) (st3_new (A := R) d' l' k').
Proof.
  unfold st3_new. destruct (get_fdma_diagonals d l k) as [[[? ?] ?]| |], (get_fdma_diagonals d' l' k') as [[[? ?] ?]| |]; cbn; auto.
Qed.
Lemma rrel_len4 d d' l l' k k' : rrel s3rel (st4_new d l k) (st4_new d' l' k') -> rrel (fun h h' => s3rel h h' /\ length (d3_diag h') = length d') (st4_new (A := f64) d l k) (st4_new (A := R) d' l' k').
Proof.
  unfold st4_new. destruct (get_fdma_diagonals2 d l k) as [[[? ?] ?]| |], (get_fdma_diagonals2 d' l' k') as [[[? ?] ?]| |]; cbn; auto.
Qed.

Lemma stencil_new_rel k n : (Z.of_nat n <= 2 ^ 17)%Z ->
  rrel (fun s s' => exists m, get_m k n = Ok m /\ strel k m s s') (stencil_new (A := f64) k n) (stencil_new (A := R) k n).
Proof.
  intros Hn. unfold stencil_new. apply rrel_bind_same. intros m Hm.
  assert (D : Forall2 crnd (repeat n1 m) (repeat n1 m)) by (apply repeat_rel; eapply crnd_exi; [apply exi_one|discriminate]).
  assert (L : length (repeat (n1 : R) m) = m) by apply repeat_length.
  assert (Sm : forall k, (k < m)%nat -> (Z.of_nat k <= 2 ^ 17 - 3)%Z).
  { intros j Hj. assert (m <= n - 2)%nat by (destruct k; cbn in Hm; unfold usub in Hm; repeat destruct (_ <=? _)%nat; try discriminate; injection Hm as <-; lia). lia. }
  destruct k.
  - eapply rrel_bind. apply rrel_len2, st2_new_rel; auto. apply repeat_rel. eapply crnd_exi; [apply exi_opp, exi_one|discriminate].
    cbv beta. intros h h' [H E]. exists m. split; auto. split; auto. congruence.
  - eapply rrel_bind. apply fill_low. intros j Hj. apply neumann_low2_f64, Sm, Hj. intros l l' Hl.
    eapply rrel_bind. apply rrel_len2, st2_new_rel; auto.
    cbv beta. intros h h' [H E]. exists m. split; auto. split; auto. congruence.
  - eapply rrel_bind. apply fill_low. intros j Hj. apply dn_low1_f64, Sm, Hj. intros l l' Hl.
    eapply rrel_bind. apply fill_low. intros j Hj. apply dn_low2_f64, Sm, Hj. intros l2 l2' Hl2.
    eapply rrel_bind. apply rrel_len3, st3_new_rel; auto.
    cbv beta. intros h h' [H E]. exists m. split; auto. split; auto. congruence.
  - eapply rrel_bind. apply fill_low. intros j Hj. apply ba_low2_f64, Sm, Hj. intros l l' Hl.
    eapply rrel_bind. apply fill_low. intros j Hj. apply ba_low4_f64, Sm, Hj. intros l2 l2' Hl2.
    eapply rrel_bind. apply rrel_len4, st4_new_rel; auto.
    cbv beta. intros h h' [H E]. exists m. split; auto. split; auto. congruence.
  - eapply rrel_bind. apply fill_low. intros j Hj. apply bb_low2_f64, Sm, Hj. intros l l' Hl.
    eapply rrel_bind. apply fill_low. intros j Hj. apply bb_low4_f64, Sm, Hj. intros l2 l2' Hl2.
    eapply rrel_bind. apply rrel_len4, st4_new_rel; auto.
    cbv beta. intros h h' [H E]. exists m. split; auto. split; auto. congruence.
Qed.

Lemma st2_array_rel s s' : s2rel s s' ->
  rrel (mr crnd (length (d2_diag s') + 2) (length (d2_diag s'))) (st2_to_array s) (st2_to_array s').
Proof.
  intros [Hd Hl]. unfold st2_to_array. rewrite (Forall2_length Hd), (Forall2_length Hl).
  apply rrel_for_each. apply mr_zeros, crnd_0. intros i M D Hi HM.
  eapply rrel_bind. apply rrel_rd, Hd. intros. eapply rrel_bind. apply rrel_rd, Hl. intros.
  eapply rrel_bind. apply mr_mwr; eassumption. intros. apply mr_mwr; assumption.
Qed.
Lemma st3_array_rel s s' : s3rel s s' ->
  rrel (mr crnd (length (d3_diag s') + 2) (length (d3_diag s'))) (st3_to_array s) (st3_to_array s').
Proof.
  intros (Hd & Hl & Hk). unfold st3_to_array. rewrite (Forall2_length Hd), (Forall2_length Hl), (Forall2_length Hk).
  apply rrel_for_each. apply mr_zeros, crnd_0. intros i M D Hi HM.
  eapply rrel_bind. apply rrel_rd, Hd. intros. eapply rrel_bind. apply rrel_rd, Hl. intros. eapply rrel_bind. apply rrel_rd, Hk. intros.
  eapply rrel_bind. apply mr_mwr; eassumption. intros. eapply rrel_bind. apply mr_mwr; eassumption. intros. apply mr_mwr; assumption.
Qed.
Lemma st4_array_rel s s' : s3rel s s' ->
  rrel (mr crnd (length (d3_diag s') + 4) (length (d3_diag s'))) (st4_to_array s) (st4_to_array s').
Proof.
  intros (Hd & Hl & Hk). unfold st4_to_array. rewrite (Forall2_length Hd), (Forall2_length Hl), (Forall2_length Hk).
  apply rrel_for_each. apply mr_zeros, crnd_0. intros i M D Hi HM.
  eapply rrel_bind. apply rrel_rd, Hd. intros. eapply rrel_bind. apply rrel_rd, Hl. intros. eapply rrel_bind. apply rrel_rd, Hk. intros.
  eapply rrel_bind. apply mr_mwr; eassumption. intros. eapply rrel_bind. apply mr_mwr; eassumption. intros. apply mr_mwr; assumption.
Qed.

(** The composite bases, built and asked for their stencil matrix. *)
Lemma compo_stencil_rel k n : (Z.of_nat n <= 2 ^ 17)%Z ->
  rrel (fun p p' => exists m, get_m k n = Ok m /\ rrel (mr crnd n m) (compo_stencil p) (compo_stencil p'))
       (compo_new (A := f64) k n) (compo_new (A := R) k n).
Proof.
  intros Hn. unfold compo_new. eapply rrel_bind. apply stencil_new_rel; auto. cbv beta. intros s s' (m & Hm & S).
  rewrite Hm. cbn [bind]. apply rrel_bind_same. intros o _. exists m. split; auto. unfold compo_stencil. cbn [p_st].
  assert (E : n = (m + match k with KBiHarmonicA | KBiHarmonicB => 4 | _ => 2 end)%nat).
  { destruct k; cbn in Hm; unfold usub in Hm;
      match type of Hm with (if (?a <=? ?b)%nat then _ else _) = _ => destruct (Nat.leb_spec a b); try discriminate end; injection Hm as <-; lia. }
  destruct k, s, s'; cbn [strel] in S; try contradiction; destruct S as [S L]; rewrite E, <- L; cbn [stencil_to_array];
   first [apply st2_array_rel | apply st3_array_rel | apply st4_array_rel]; exact S.
Qed.
