(** C56: a field of Space1, Space2 or Space3 that is transformed there and back in
    f64 is, entry by entry, close to itself. *)
From Coq Require Import List Arith ZArith Reals Bool Lra Lia.
From Flocq Require Import Core BinarySingleNaN.
From Verif Require Import Base Num Linalg Stencils Cheb ChebFacts Compo Fourier FourierF64 FourierFacts FourierProofs Bases BaseLin LibBase NdArray NdArrayFacts AxisFacts AxisProps PropAxis SpaceFacts SpaceBases SpaceStages Space PropSpace PropSpace2 PropElements
  ExtLib AnyArith ExtFacts AnyBase PropAny PropAny2 Rounding LibAcc LibIdeal RndCheb RndFft RndR2c RndFinite2 PropRound PropRound2 PropTrans2 RndAxis RndOps SpaceAcc RndSpace.
Import ListNotations.
Local Open Scope R_scope.
Local Notation u64 := (bpow radix2 (-53)).
Local Notation eta64 := (bpow radix2 (-1075)).
Notation R800 := (bpow radix2 800).

Lemma le_1 dl : 0 <= dl <= / 2000 -> 0 <= dl <= 1.
Proof. lra. Qed.
Lemma R800_le k : (800 <= k)%Z -> R800 <= bpow radix2 k.
Proof. intros. apply bpow_le; auto. Qed.
Ltac axr a b pre post := refine (axis_rows _ _ _ _ _ a b pre post _ _ _); [|eassumption|].
Ltac vrow := intros; repeat match goal with H : D1 _ _ |- _ => destruct H | H : D2 _ _ _ |- _ => destruct H end; split; [reflexivity|]; cbn [rm_axis firstn skipn app]; vld.

Section Space1.
Context (E : ext f64) (HE : ext_ok E) (dl zt : R) (Hd : 0 <= dl <= / 2000) (Hz : 0 <= zt <= 1).
Context r0 {P S T} (b0 : base_ops P S T) (eP : fel P) (eS : fel S) (H0 : f64_orthogonal E dl zt r0 P S T b0 eP eS).
Context (dP : Dflt P) (dS : Dflt S) (dT : Dflt T) (zo : zip_order) (HZ : zip_ok zo).
Let sp := mk_space1 b0.
Lemma space1_phys (a : arr P) : proper (s1_shape_physical sp) a -> (forall i, (i < len_phys b0)%nat -> ef eP (get a [i])) -> rsum (len_phys b0) (fun i => esize eP (get a [i])) <= R800 ->
  exists c y, s1_forward zo sp a = Ok c /\ s1_backward zo sp c = Ok y /\ proper (s1_shape_physical sp) y /\
    forall i, (i < len_phys b0)%nat -> ef eP (get y [i]) /\
      edist eP (get y [i]) (ev eP (get a [i])) <= 33 * (dl + u64) * rsum (len_phys b0) (fun i => esize eP (get a [i])) + 29 * (INR (len_phys b0) * INR (len_phys b0)) * (eta64 + zt).
Proof.
  intros Pa Fa Sa. destruct (C53_space1_applies_each_base_along_its_axis f64 _ _ E HE eq_refl P S T b0 (orth_usable _ _ _ _ _ _ _ _ _ _ H0) dP dS dT zo HZ) as (HF & HB & _).
  destruct (HF a (azeros dflt _) Pa (proper_zeros _ _)) as (c & _ & Ec & Pc & Ac). destruct (HB c (azeros dflt _) Pc (proper_zeros _ _)) as (y & _ & Ey & Py & Ay).
  exists c, y. split; [exact Ec|]. split; [exact Ey|]. split; [exact Py|]. intros i Hi.
  destruct (orth_good _ _ _ _ _ _ _ _ _ _ H0 (le_1 _ Hd) Hz) as (Hq & G0 & _). pose proof (proj1 Pa) as Sha. pose proof (proj1 Pc) as Shc.
  refine (rt1 dl zt Hd Hz _ _ _ _ _ eP eS _ (fun i => get a [i]) (fun i => get y [i]) (fun i => get c [i]) G0 Hq _ _ _ _ (tt, i) _).
  - axr a c (fun _ : unit => @nil nat) (fun _ : unit => @nil nat). rewrite Sha. reflexivity. rewrite Sha. vrow.
  - axr c y (fun _ : unit => @nil nat) (fun _ : unit => @nil nat). rewrite Shc. reflexivity. rewrite Shc. vrow.
  - intros p [_ Hp]. apply Fa; auto.
  - eapply Rle_trans; [exact Sa|]. apply R800_le; lia.
  - split; auto.
Qed.
Lemma space1_spec (a : arr S) : proper (s1_shape_spectral sp) a -> (forall i, (i < len_spec b0)%nat -> ef eS (get a [i])) -> rsum (len_spec b0) (fun i => esize eS (get a [i])) <= R800 ->
  exists c y, s1_backward zo sp a = Ok c /\ s1_forward zo sp c = Ok y /\ proper (s1_shape_spectral sp) y /\
    forall i, (i < len_spec b0)%nat -> ef eS (get y [i]) /\
      edist eS (get y [i]) (kept b0 r0 i (ev eS (get a [i]))) <= 33 * (dl + u64) * rsum (len_spec b0) (fun i => esize eS (get a [i])) + 29 * (INR (len_phys b0) * INR (len_phys b0)) * (eta64 + zt).
Proof.
  intros Pa Fa Sa. destruct (C53_space1_applies_each_base_along_its_axis f64 _ _ E HE eq_refl P S T b0 (orth_usable _ _ _ _ _ _ _ _ _ _ H0) dP dS dT zo HZ) as (HF & HB & _).
  destruct (HB a (azeros dflt _) Pa (proper_zeros _ _)) as (c & _ & Ec & Pc & Ac). destruct (HF c (azeros dflt _) Pc (proper_zeros _ _)) as (y & _ & Ey & Py & Ay).
  exists c, y. split; [exact Ec|]. split; [exact Ey|]. split; [exact Py|]. intros i Hi.
  destruct (orth_good _ _ _ _ _ _ _ _ _ _ H0 (le_1 _ Hd) Hz) as (Hq & _ & G0). pose proof (proj1 Pa) as Sha. pose proof (proj1 Pc) as Shc.
  refine (rt1 dl zt Hd Hz _ _ _ _ _ eS eP _ (fun i => get a [i]) (fun i => get y [i]) (fun i => get c [i]) G0 Hq _ _ _ _ (tt, i) _).
  - axr a c (fun _ : unit => @nil nat) (fun _ : unit => @nil nat). rewrite Sha. reflexivity. rewrite Sha. vrow.
  - axr c y (fun _ : unit => @nil nat) (fun _ : unit => @nil nat). rewrite Shc. reflexivity. rewrite Shc. vrow.
  - intros p [_ Hp]. apply Fa; auto.
  - eapply Rle_trans; [exact Sa|]. apply R800_le; lia.
  - split; auto.
Qed.
End Space1.

Section Space2.
Context (E : ext f64) (HE : ext_ok E) (dl zt : R) (Hd : 0 <= dl <= / 2000) (Hz : 0 <= zt <= 1).
Context r0 r1 {P I S T} (b0 : base_ops I S T) (b1 : base_ops P I T) (eP : fel P) (eI : fel I) (eS : fel S) (H0 : f64_orthogonal E dl zt r0 I S T b0 eI eS) (H1 : f64_orthogonal E dl zt r1 P I T b1 eP eI).
Context (dP : Dflt P) (dI : Dflt I) (dS : Dflt S) (dT : Dflt T) (zo : zip_order) (HZ : zip_ok zo).
Let sp := mk_space2 b0 b1.
Let n := len_phys b0.
Let m := len_phys b1.
Let n' := len_spec b0.
Let m' := len_spec b1.
Lemma space2_phys (a : arr P) : proper (s2_shape_physical sp) a -> (forall i j, (i < n)%nat -> (j < m)%nat -> ef eP (get a [i; j])) -> rsum n (fun i => rsum m (fun j => esize eP (get a [i; j]))) <= R800 ->
  exists c y, s2_forward zo sp a = Ok c /\ s2_backward zo sp c = Ok y /\ proper (s2_shape_physical sp) y /\
    forall i j, (i < n)%nat -> (j < m)%nat -> ef eP (get y [i; j]) /\
      edist eP (get y [i; j]) (ev eP (get a [i; j])) <= 178 * (dl + u64) * rsum n (fun i => rsum m (fun j => esize eP (get a [i; j]))) + 90 * ((INR n * INR m) * (INR n * INR m)) * (eta64 + zt).
Proof.
  intros Pa Fa Sa. destruct (C53_space2_applies_each_base_along_its_axis f64 _ _ E HE eq_refl P I S T b0 b1 (orth_usable _ _ _ _ _ _ _ _ _ _ H0) (orth_usable _ _ _ _ _ _ _ _ _ _ H1) dP dI dS dT zo HZ) as (HF & HB & _).
  destruct (HF a (azeros dflt _) Pa (proper_zeros _ _)) as (z & c & _ & Ec & Pc & Az & Ac). destruct (HB c (azeros dflt _) Pc (proper_zeros _ _)) as (z' & y & _ & Ey & Py & Az' & Ay).
  exists c, y. split; [exact Ec|]. split; [exact Ey|]. split; [exact Py|]. intros i j Hi Hj.
  destruct (orth_good _ _ _ _ _ _ _ _ _ _ H0 (le_1 _ Hd) Hz) as (Hq0 & G0 & _). destruct (orth_good _ _ _ _ _ _ _ _ _ _ H1 (le_1 _ Hd) Hz) as (Hq1 & G1 & _).
  pose proof (proj1 Pa) as Sha. pose proof (proj1 Pc) as Shc. pose proof (proj1 (proper_op _ _ _ _ _ _ _ Az Pa eq_refl)) as Shz. pose proof (proj1 (proper_op _ _ _ _ _ _ _ Az' Pc eq_refl)) as Shz'.
  refine (rt2 dl zt Hd Hz _ _ _ _ _ eP eI _ _ _ _ _ _ eS (fun i j => get a [i; j]) (fun i j => get y [i; j]) (fun i j => get z [i; j]) (fun i j => get z' [i; j]) (fun i j => get c [i; j]) G1 Hq1 G0 Hq0 _ _ _ _ _ _ (tt, i, j) _).
  - axr a z (fun p : unit * nat => [snd p]) (fun _ : unit * nat => @nil nat). rewrite Sha. reflexivity. rewrite Sha. vrow.
  - axr z' y (fun p : unit * nat => [snd p]) (fun _ : unit * nat => @nil nat). rewrite Shz'. reflexivity. rewrite Shz'. vrow.
  - intros k Hk. axr z c (fun _ : unit => @nil nat) (fun _ : unit => [k]). rewrite Shz. reflexivity. rewrite Shz. vrow.
  - intros k Hk. axr c z' (fun _ : unit => @nil nat) (fun _ : unit => [k]). rewrite Shc. reflexivity. rewrite Shc. vrow.
  - intros p [[_ Hp] Hp']. apply Fa; auto.
  - eapply Rle_trans; [exact Sa|]. apply R800_le; lia.
  - split; [split; auto|auto].
Qed.
Lemma space2_spec (a : arr S) : r1 = false -> proper (s2_shape_spectral sp) a -> (forall i j, (i < n')%nat -> (j < m')%nat -> ef eS (get a [i; j])) -> rsum n' (fun i => rsum m' (fun j => esize eS (get a [i; j]))) <= R800 ->
  exists c y, s2_backward zo sp a = Ok c /\ s2_forward zo sp c = Ok y /\ proper (s2_shape_spectral sp) y /\
    forall i j, (i < n')%nat -> (j < m')%nat -> ef eS (get y [i; j]) /\
      edist eS (get y [i; j]) (kept b0 r0 i (ev eS (get a [i; j]))) <= 178 * (dl + u64) * rsum n' (fun i => rsum m' (fun j => esize eS (get a [i; j]))) + 90 * ((INR n * INR m) * (INR n * INR m)) * (eta64 + zt).
Proof.
  intros -> Pa Fa Sa. destruct (C53_space2_applies_each_base_along_its_axis f64 _ _ E HE eq_refl P I S T b0 b1 (orth_usable _ _ _ _ _ _ _ _ _ _ H0) (orth_usable _ _ _ _ _ _ _ _ _ _ H1) dP dI dS dT zo HZ) as (HF & HB & _).
  destruct (HB a (azeros dflt _) Pa (proper_zeros _ _)) as (z & c & _ & Ec & Pc & Az & Ac). destruct (HF c (azeros dflt _) Pc (proper_zeros _ _)) as (z' & y & _ & Ey & Py & Az' & Ay).
  exists c, y. split; [exact Ec|]. split; [exact Ey|]. split; [exact Py|]. intros i j Hi Hj.
  destruct (orth_good _ _ _ _ _ _ _ _ _ _ H0 (le_1 _ Hd) Hz) as (Hq0 & _ & G0). destruct (orth_good _ _ _ _ _ _ _ _ _ _ H1 (le_1 _ Hd) Hz) as (Hq1 & _ & G1). rewrite kept_false in G1.
  pose proof (proj1 Pa) as Sha. pose proof (proj1 Pc) as Shc. pose proof (proj1 (proper_op _ _ _ _ _ _ _ Az Pa eq_refl)) as Shz. pose proof (proj1 (proper_op _ _ _ _ _ _ _ Az' Pc eq_refl)) as Shz'.
  rewrite rsum_swap. rewrite rsum_swap in Sa. rewrite (Rmult_comm (INR n)).
  refine (rt2 dl zt Hd Hz _ _ _ _ _ eS eI _ _ _ _ _ _ eP (fun i j => get a [j; i]) (fun i j => get y [j; i]) (fun i j => get z [j; i]) (fun i j => get z' [j; i]) (fun i j => get c [j; i]) G0 Hq0 G1 Hq1 _ _ _ _ _ _ (tt, j, i) _).
  - axr a z (fun p : unit * nat => @nil nat) (fun p : unit * nat => [snd p]). rewrite Sha. reflexivity. rewrite Sha. vrow.
  - axr z' y (fun p : unit * nat => @nil nat) (fun p : unit * nat => [snd p]). rewrite Shz'. reflexivity. rewrite Shz'. vrow.
  - intros k Hk. axr z c (fun _ : unit => [k]) (fun _ : unit => @nil nat). rewrite Shz. reflexivity. rewrite Shz. vrow.
  - intros k Hk. axr c z' (fun _ : unit => [k]) (fun _ : unit => @nil nat). rewrite Shc. reflexivity. rewrite Shc. vrow.
  - intros p [[_ Hp] Hp']. apply Fa; auto.
  - eapply Rle_trans; [exact Sa|]. apply R800_le; lia.
  - split; [split; auto|auto].
Qed.
End Space2.

Section Space3.
Context (E : ext f64) (HE : ext_ok E) (dl zt : R) (Hd : 0 <= dl <= / 2000) (Hz : 0 <= zt <= 1).
Context r0 r1 r2 {P I J S T} (b0 : base_ops J S T) (b1 : base_ops I J T) (b2 : base_ops P I T) (eP : fel P) (eI : fel I) (eJ : fel J) (eS : fel S)
  (H0 : f64_orthogonal E dl zt r0 J S T b0 eJ eS) (H1 : f64_orthogonal E dl zt r1 I J T b1 eI eJ) (H2 : f64_orthogonal E dl zt r2 P I T b2 eP eI).
Context (dP : Dflt P) (dI : Dflt I) (dJ : Dflt J) (dS : Dflt S) (dT : Dflt T) (zo : zip_order) (HZ : zip_ok zo).
Let sp := mk_space3 b0 b1 b2.
Let n := len_phys b0.
Let m := len_phys b1.
Let l := len_phys b2.
Let n' := len_spec b0.
Let m' := len_spec b1.
Let l' := len_spec b2.
Lemma space3_phys (a : arr P) : proper (s3_shape_physical sp) a -> (forall i j k, (i < n)%nat -> (j < m)%nat -> (k < l)%nat -> ef eP (get a [i; j; k])) ->
  rsum n (fun i => rsum m (fun j => rsum l (fun k => esize eP (get a [i; j; k])))) <= R800 ->
  exists c y, s3_forward zo sp a = Ok c /\ s3_backward zo sp c = Ok y /\ proper (s3_shape_physical sp) y /\
    forall i j k, (i < n)%nat -> (j < m)%nat -> (k < l)%nat -> ef eP (get y [i; j; k]) /\
      edist eP (get y [i; j; k]) (ev eP (get a [i; j; k])) <= 816 * (dl + u64) * rsum n (fun i => rsum m (fun j => rsum l (fun k => esize eP (get a [i; j; k])))) + 218 * ((INR n * INR m * INR l) * (INR n * INR m * INR l)) * (eta64 + zt).
Proof.
  intros Pa Fa Sa. destruct (C53_space3_applies_each_base_along_its_axis f64 _ _ E HE eq_refl P I J S T b0 b1 b2 (orth_usable _ _ _ _ _ _ _ _ _ _ H0) (orth_usable _ _ _ _ _ _ _ _ _ _ H1) (orth_usable _ _ _ _ _ _ _ _ _ _ H2) dP dI dJ dS dT zo HZ) as (HF & HB & _).
  destruct (HF a (azeros dflt _) Pa (proper_zeros _ _)) as (z & u & c & _ & Ec & Pc & Az & Au & Ac). destruct (HB c (azeros dflt _) Pc (proper_zeros _ _)) as (u' & z' & y & _ & Ey & Py & Au' & Az' & Ay).
  exists c, y. split; [exact Ec|]. split; [exact Ey|]. split; [exact Py|]. intros i j k Hi Hj Hk.
  destruct (orth_good _ _ _ _ _ _ _ _ _ _ H0 (le_1 _ Hd) Hz) as (Hq0 & G0 & _). destruct (orth_good _ _ _ _ _ _ _ _ _ _ H1 (le_1 _ Hd) Hz) as (Hq1 & G1 & _). destruct (orth_good _ _ _ _ _ _ _ _ _ _ H2 (le_1 _ Hd) Hz) as (Hq2 & G2 & _).
  pose proof (proj1 Pa) as Sha. pose proof (proj1 Pc) as Shc. pose proof (proper_op _ _ _ _ _ _ _ Az Pa eq_refl) as Pz. pose proof (proj1 Pz) as Shz. pose proof (proj1 (proper_op _ _ _ _ _ _ _ Au Pz eq_refl)) as Shu.
  pose proof (proper_op _ _ _ _ _ _ _ Au' Pc eq_refl) as Pu'. pose proof (proj1 Pu') as Shu'. pose proof (proj1 (proper_op _ _ _ _ _ _ _ Az' Pu' eq_refl)) as Shz'.
  refine (rt3 dl zt Hd Hz _ _ _ _ _ eP eI _ _ _ _ _ _ eJ _ _ _ _ _ eS (fun i j k => get a [i; j; k]) (fun i j k => get y [i; j; k]) (fun i j k => get z [i; j; k]) (fun i j k => get z' [i; j; k])
    (fun i j k => get u [i; j; k]) (fun i j k => get u' [i; j; k]) (fun i j k => get c [i; j; k]) G2 Hq2 G1 Hq1 G0 Hq0 _ _ _ _ _ _ _ _ (tt, i, j, k) _).
  - axr a z (fun p : unit * nat * nat => [snd (fst p); snd p]) (fun _ : unit * nat * nat => @nil nat). rewrite Sha. reflexivity. rewrite Sha. vrow.
  - axr z' y (fun p : unit * nat * nat => [snd (fst p); snd p]) (fun _ : unit * nat * nat => @nil nat). rewrite Shz'. reflexivity. rewrite Shz'. vrow.
  - intros x Hx. axr z u (fun p : unit * nat => [snd p]) (fun _ : unit * nat => [x]). rewrite Shz. reflexivity. rewrite Shz. vrow.
  - intros x Hx. axr u' z' (fun p : unit * nat => [snd p]) (fun _ : unit * nat => [x]). rewrite Shu'. reflexivity. rewrite Shu'. vrow.
  - intros x v Hx Hv. axr u c (fun _ : unit => @nil nat) (fun _ : unit => [v; x]). rewrite Shu. reflexivity. rewrite Shu. vrow.
  - intros x v Hx Hv. axr c u' (fun _ : unit => @nil nat) (fun _ : unit => [v; x]). rewrite Shc. reflexivity. rewrite Shc. vrow.
  - intros p [[[_ Hp] Hp'] Hp2]. apply Fa; auto.
  - exact Sa.
  - split; [split; [split; auto|auto]|auto].
Qed.
Lemma space3_spec (a : arr S) : r1 = false -> r2 = false -> proper (s3_shape_spectral sp) a -> (forall i j k, (i < n')%nat -> (j < m')%nat -> (k < l')%nat -> ef eS (get a [i; j; k])) ->
  rsum n' (fun i => rsum m' (fun j => rsum l' (fun k => esize eS (get a [i; j; k])))) <= R800 ->
  exists c y, s3_backward zo sp a = Ok c /\ s3_forward zo sp c = Ok y /\ proper (s3_shape_spectral sp) y /\
    forall i j k, (i < n')%nat -> (j < m')%nat -> (k < l')%nat -> ef eS (get y [i; j; k]) /\
      edist eS (get y [i; j; k]) (kept b0 r0 i (ev eS (get a [i; j; k]))) <= 816 * (dl + u64) * rsum n' (fun i => rsum m' (fun j => rsum l' (fun k => esize eS (get a [i; j; k])))) + 218 * ((INR n * INR m * INR l) * (INR n * INR m * INR l)) * (eta64 + zt).
Proof.
  intros -> -> Pa Fa Sa. destruct (C53_space3_applies_each_base_along_its_axis f64 _ _ E HE eq_refl P I J S T b0 b1 b2 (orth_usable _ _ _ _ _ _ _ _ _ _ H0) (orth_usable _ _ _ _ _ _ _ _ _ _ H1) (orth_usable _ _ _ _ _ _ _ _ _ _ H2) dP dI dJ dS dT zo HZ) as (HF & HB & _).
  destruct (HB a (azeros dflt _) Pa (proper_zeros _ _)) as (z & u & c & _ & Ec & Pc & Az & Au & Ac). destruct (HF c (azeros dflt _) Pc (proper_zeros _ _)) as (u' & z' & y & _ & Ey & Py & Au' & Az' & Ay).
  exists c, y. split; [exact Ec|]. split; [exact Ey|]. split; [exact Py|]. intros i j k Hi Hj Hk.
  destruct (orth_good _ _ _ _ _ _ _ _ _ _ H0 (le_1 _ Hd) Hz) as (Hq0 & _ & G0). destruct (orth_good _ _ _ _ _ _ _ _ _ _ H1 (le_1 _ Hd) Hz) as (Hq1 & _ & G1). destruct (orth_good _ _ _ _ _ _ _ _ _ _ H2 (le_1 _ Hd) Hz) as (Hq2 & _ & G2).
  rewrite kept_false in G1. rewrite kept_false in G2.
  pose proof (proj1 Pa) as Sha. pose proof (proj1 Pc) as Shc. pose proof (proper_op _ _ _ _ _ _ _ Az Pa eq_refl) as Pz. pose proof (proj1 Pz) as Shz. pose proof (proj1 (proper_op _ _ _ _ _ _ _ Au Pz eq_refl)) as Shu.
  pose proof (proper_op _ _ _ _ _ _ _ Au' Pc eq_refl) as Pu'. pose proof (proj1 Pu') as Shu'. pose proof (proj1 (proper_op _ _ _ _ _ _ _ Az' Pu' eq_refl)) as Shz'.
  assert (SW : rsum n' (fun i => rsum m' (fun j => rsum l' (fun k => esize eS (get a [i; j; k])))) = rsum l' (fun k => rsum m' (fun j => rsum n' (fun i => esize eS (get a [i; j; k]))))).
  { erewrite rsum_ext; [|intros; apply rsum_swap]. rewrite rsum_swap. apply rsum_ext; intros. apply rsum_swap. }
  rewrite SW in *. replace (INR n * INR m * INR l) with (INR l * INR m * INR n) by ring.
  refine (rt3 dl zt Hd Hz _ _ _ _ _ eS eJ _ _ _ _ _ _ eI _ _ _ _ _ eP (fun k j i => get a [i; j; k]) (fun k j i => get y [i; j; k]) (fun k j i => get z [i; j; k]) (fun k j i => get z' [i; j; k])
    (fun k j i => get u [i; j; k]) (fun k j i => get u' [i; j; k]) (fun k j i => get c [i; j; k]) G0 Hq0 G1 Hq1 G2 Hq2 _ _ _ _ _ _ _ _ (tt, k, j, i) _).
  - axr a z (fun _ : unit * nat * nat => @nil nat) (fun p : unit * nat * nat => [snd p; snd (fst p)]). rewrite Sha. reflexivity. rewrite Sha. vrow.
  - axr z' y (fun _ : unit * nat * nat => @nil nat) (fun p : unit * nat * nat => [snd p; snd (fst p)]). rewrite Shz'. reflexivity. rewrite Shz'. vrow.
  - intros x Hx. axr z u (fun _ : unit * nat => [x]) (fun p : unit * nat => [snd p]). rewrite Shz. reflexivity. rewrite Shz. vrow.
  - intros x Hx. axr u' z' (fun _ : unit * nat => [x]) (fun p : unit * nat => [snd p]). rewrite Shu'. reflexivity. rewrite Shu'. vrow.
  - intros x v Hx Hv. axr u c (fun _ : unit => [x; v]) (fun _ : unit => @nil nat). rewrite Shu. reflexivity. rewrite Shu. vrow.
  - intros x v Hx Hv. axr c u' (fun _ : unit => [x; v]) (fun _ : unit => @nil nat). rewrite Shc. reflexivity. rewrite Shc. vrow.
  - intros p [[[_ Hp] Hp'] Hp2]. apply Fa; auto.
  - exact Sa.
  - split; [split; [split; auto|auto]|auto].
Qed.
End Space3.

(** ** The theorems. [dl] and [zt] are the relative and the absolute error of the
    transform libraries; [ef e a] says that the entry [a] is finite, [esize e a] is
    its size and [edist e a z] its distance to [z]. *)
Theorem C56_space1_backward_of_forward_f64 :
  forall E : ext f64, ext_ok E -> forall dl zt, 0 <= dl <= / 2000 -> 0 <= zt <= 1 ->
  forall r0 P S T (b0 : base_ops P S T) (eP : fel P) (eS : fel S), f64_orthogonal E dl zt r0 P S T b0 eP eS ->
  forall (dP : Dflt P) (dS : Dflt S) (dT : Dflt T) zo, zip_ok zo ->
  let sp := mk_space1 b0 in let n := len_phys b0 in
  forall a : arr P, proper [n] a -> (forall i, (i < n)%nat -> ef eP (get a [i])) ->
  let Sum := rsum n (fun i => esize eP (get a [i])) in
  Sum <= bpow radix2 800 ->
  exists c y, s1_forward zo sp a = Ok c /\ s1_backward zo sp c = Ok y /\ proper [n] y /\
    forall i, (i < n)%nat -> ef eP (get y [i]) /\
      edist eP (get y [i]) (ev eP (get a [i])) <= 33 * (dl + bpow radix2 (-53)) * Sum + 29 * INR n ^ 2 * (bpow radix2 (-1075) + zt).
Proof.
  intros. destruct (space1_phys E H dl zt H0 H1 r0 b0 eP eS H2 dP dS dT zo H3 a H4 H5 H6) as (c & y & Ec & Ey & Py & HH).
  exists c, y. split; [exact Ec|]. split; [exact Ey|]. split; [exact Py|]. intros i Hi. destruct (HH i Hi) as [HF HD]. split; [exact HF|]. eapply Rle_trans; [exact HD|]. right. unfold Sum, n. ring.
Qed.
Print Assumptions C56_space1_backward_of_forward_f64.

(** The spectral round trip; of a real-to-complex transform it keeps [kept]. *)
Theorem C56_space1_forward_of_backward_f64 :
  forall E : ext f64, ext_ok E -> forall dl zt, 0 <= dl <= / 2000 -> 0 <= zt <= 1 ->
  forall r0 P S T (b0 : base_ops P S T) (eP : fel P) (eS : fel S), f64_orthogonal E dl zt r0 P S T b0 eP eS ->
  forall (dP : Dflt P) (dS : Dflt S) (dT : Dflt T) zo, zip_ok zo ->
  let sp := mk_space1 b0 in let n := len_phys b0 in let m := len_spec b0 in
  forall a : arr S, proper [m] a -> (forall i, (i < m)%nat -> ef eS (get a [i])) ->
  let Sum := rsum m (fun i => esize eS (get a [i])) in
  Sum <= bpow radix2 800 ->
  exists c y, s1_backward zo sp a = Ok c /\ s1_forward zo sp c = Ok y /\ proper [m] y /\
    forall i, (i < m)%nat -> ef eS (get y [i]) /\
      edist eS (get y [i]) (kept b0 r0 i (ev eS (get a [i]))) <= 33 * (dl + bpow radix2 (-53)) * Sum + 29 * INR n ^ 2 * (bpow radix2 (-1075) + zt).
Proof.
  intros. destruct (space1_spec E H dl zt H0 H1 r0 b0 eP eS H2 dP dS dT zo H3 a H4 H5 H6) as (c & y & Ec & Ey & Py & HH).
  exists c, y. split; [exact Ec|]. split; [exact Ey|]. split; [exact Py|]. intros i Hi. destruct (HH i Hi) as [HF HD]. split; [exact HF|]. eapply Rle_trans; [exact HD|]. right. unfold Sum, m, n. ring.
Qed.

Theorem C56_space2_backward_of_forward_f64 :
  forall E : ext f64, ext_ok E -> forall dl zt, 0 <= dl <= / 2000 -> 0 <= zt <= 1 ->
  forall r0 r1 P I S T (b0 : base_ops I S T) (b1 : base_ops P I T) (eP : fel P) (eI : fel I) (eS : fel S),
  f64_orthogonal E dl zt r0 I S T b0 eI eS -> f64_orthogonal E dl zt r1 P I T b1 eP eI ->
  forall (dP : Dflt P) (dI : Dflt I) (dS : Dflt S) (dT : Dflt T) zo, zip_ok zo ->
  let sp := mk_space2 b0 b1 in let n0 := len_phys b0 in let n1 := len_phys b1 in
  forall a : arr P, proper [n0; n1] a -> (forall i j, (i < n0)%nat -> (j < n1)%nat -> ef eP (get a [i; j])) ->
  let Sum := rsum n0 (fun i => rsum n1 (fun j => esize eP (get a [i; j]))) in
  Sum <= bpow radix2 800 ->
  exists c y, s2_forward zo sp a = Ok c /\ s2_backward zo sp c = Ok y /\ proper [n0; n1] y /\
    forall i j, (i < n0)%nat -> (j < n1)%nat -> ef eP (get y [i; j]) /\
      edist eP (get y [i; j]) (ev eP (get a [i; j])) <= 178 * (dl + bpow radix2 (-53)) * Sum + 90 * (INR n0 * INR n1) ^ 2 * (bpow radix2 (-1075) + zt).
Proof.
  intros. destruct (space2_phys E H dl zt H0 H1 r0 r1 b0 b1 eP eI eS H2 H3 dP dI dS dT zo H4 a H5 H6 H7) as (c & y & Ec & Ey & Py & HH).
  exists c, y. split; [exact Ec|]. split; [exact Ey|]. split; [exact Py|]. intros i j Hi Hj. destruct (HH i j Hi Hj) as [HF HD]. split; [exact HF|]. eapply Rle_trans; [exact HD|]. right. unfold Sum, n0, n1. ring.
Qed.
Print Assumptions C56_space2_backward_of_forward_f64.

Theorem C56_space2_forward_of_backward_f64 :
  forall E : ext f64, ext_ok E -> forall dl zt, 0 <= dl <= / 2000 -> 0 <= zt <= 1 ->
  forall r0 P I S T (b0 : base_ops I S T) (b1 : base_ops P I T) (eP : fel P) (eI : fel I) (eS : fel S),
  f64_orthogonal E dl zt r0 I S T b0 eI eS -> f64_orthogonal E dl zt false P I T b1 eP eI ->
  forall (dP : Dflt P) (dI : Dflt I) (dS : Dflt S) (dT : Dflt T) zo, zip_ok zo ->
  let sp := mk_space2 b0 b1 in let n0 := len_phys b0 in let n1 := len_phys b1 in let m0 := len_spec b0 in let m1 := len_spec b1 in
  forall a : arr S, proper [m0; m1] a -> (forall i j, (i < m0)%nat -> (j < m1)%nat -> ef eS (get a [i; j])) ->
  let Sum := rsum m0 (fun i => rsum m1 (fun j => esize eS (get a [i; j]))) in
  Sum <= bpow radix2 800 ->
  exists c y, s2_backward zo sp a = Ok c /\ s2_forward zo sp c = Ok y /\ proper [m0; m1] y /\
    forall i j, (i < m0)%nat -> (j < m1)%nat -> ef eS (get y [i; j]) /\
      edist eS (get y [i; j]) (kept b0 r0 i (ev eS (get a [i; j]))) <= 178 * (dl + bpow radix2 (-53)) * Sum + 90 * (INR n0 * INR n1) ^ 2 * (bpow radix2 (-1075) + zt).
Proof.
  intros. destruct (space2_spec E H dl zt H0 H1 r0 false b0 b1 eP eI eS H2 H3 dP dI dS dT zo H4 a eq_refl H5 H6 H7) as (c & y & Ec & Ey & Py & HH).
  exists c, y. split; [exact Ec|]. split; [exact Ey|]. split; [exact Py|]. intros i j Hi Hj. destruct (HH i j Hi Hj) as [HF HD]. split; [exact HF|]. eapply Rle_trans; [exact HD|]. right. unfold Sum, n0, n1, m0, m1. ring.
Qed.

Theorem C56_space3_backward_of_forward_f64 :
  forall E : ext f64, ext_ok E -> forall dl zt, 0 <= dl <= / 2000 -> 0 <= zt <= 1 ->
  forall r0 r1 r2 P I J S T (b0 : base_ops J S T) (b1 : base_ops I J T) (b2 : base_ops P I T) (eP : fel P) (eI : fel I) (eJ : fel J) (eS : fel S),
  f64_orthogonal E dl zt r0 J S T b0 eJ eS -> f64_orthogonal E dl zt r1 I J T b1 eI eJ -> f64_orthogonal E dl zt r2 P I T b2 eP eI ->
  forall (dP : Dflt P) (dI : Dflt I) (dJ : Dflt J) (dS : Dflt S) (dT : Dflt T) zo, zip_ok zo ->
  let sp := mk_space3 b0 b1 b2 in let n0 := len_phys b0 in let n1 := len_phys b1 in let n2 := len_phys b2 in
  forall a : arr P, proper [n0; n1; n2] a -> (forall i j k, (i < n0)%nat -> (j < n1)%nat -> (k < n2)%nat -> ef eP (get a [i; j; k])) ->
  let Sum := rsum n0 (fun i => rsum n1 (fun j => rsum n2 (fun k => esize eP (get a [i; j; k])))) in
  Sum <= bpow radix2 800 ->
  exists c y, s3_forward zo sp a = Ok c /\ s3_backward zo sp c = Ok y /\ proper [n0; n1; n2] y /\
    forall i j k, (i < n0)%nat -> (j < n1)%nat -> (k < n2)%nat -> ef eP (get y [i; j; k]) /\
      edist eP (get y [i; j; k]) (ev eP (get a [i; j; k])) <= 816 * (dl + bpow radix2 (-53)) * Sum + 218 * (INR n0 * INR n1 * INR n2) ^ 2 * (bpow radix2 (-1075) + zt).
Proof.
  intros. destruct (space3_phys E H dl zt H0 H1 r0 r1 r2 b0 b1 b2 eP eI eJ eS H2 H3 H4 dP dI dJ dS dT zo H5 a H6 H7 H8) as (c & y & Ec & Ey & Py & HH).
  exists c, y. split; [exact Ec|]. split; [exact Ey|]. split; [exact Py|]. intros i j k Hi Hj Hk. destruct (HH i j k Hi Hj Hk) as [HF HD]. split; [exact HF|]. eapply Rle_trans; [exact HD|]. right. unfold Sum, n0, n1, n2. ring.
Qed.
Print Assumptions C56_space3_backward_of_forward_f64.

Theorem C56_space3_forward_of_backward_f64 :
  forall E : ext f64, ext_ok E -> forall dl zt, 0 <= dl <= / 2000 -> 0 <= zt <= 1 ->
  forall r0 P I J S T (b0 : base_ops J S T) (b1 : base_ops I J T) (b2 : base_ops P I T) (eP : fel P) (eI : fel I) (eJ : fel J) (eS : fel S),
  f64_orthogonal E dl zt r0 J S T b0 eJ eS -> f64_orthogonal E dl zt false I J T b1 eI eJ -> f64_orthogonal E dl zt false P I T b2 eP eI ->
  forall (dP : Dflt P) (dI : Dflt I) (dJ : Dflt J) (dS : Dflt S) (dT : Dflt T) zo, zip_ok zo ->
  let sp := mk_space3 b0 b1 b2 in let n0 := len_phys b0 in let n1 := len_phys b1 in let n2 := len_phys b2 in
  let m0 := len_spec b0 in let m1 := len_spec b1 in let m2 := len_spec b2 in
  forall a : arr S, proper [m0; m1; m2] a -> (forall i j k, (i < m0)%nat -> (j < m1)%nat -> (k < m2)%nat -> ef eS (get a [i; j; k])) ->
  let Sum := rsum m0 (fun i => rsum m1 (fun j => rsum m2 (fun k => esize eS (get a [i; j; k])))) in
  Sum <= bpow radix2 800 ->
  exists c y, s3_backward zo sp a = Ok c /\ s3_forward zo sp c = Ok y /\ proper [m0; m1; m2] y /\
    forall i j k, (i < m0)%nat -> (j < m1)%nat -> (k < m2)%nat -> ef eS (get y [i; j; k]) /\
      edist eS (get y [i; j; k]) (kept b0 r0 i (ev eS (get a [i; j; k]))) <= 816 * (dl + bpow radix2 (-53)) * Sum + 218 * (INR n0 * INR n1 * INR n2) ^ 2 * (bpow radix2 (-1075) + zt).
Proof.
  intros. destruct (space3_spec E H dl zt H0 H1 r0 false false b0 b1 b2 eP eI eJ eS H2 H3 H4 dP dI dJ dS dT zo H5 a eq_refl eq_refl H6 H7 H8) as (c & y & Ec & Ey & Py & HH).
  exists c, y. split; [exact Ec|]. split; [exact Ey|]. split; [exact Py|]. intros i j k Hi Hj Hk. destruct (HH i j k Hi Hj Hk) as [HF HD]. split; [exact HF|]. eapply Rle_trans; [exact HD|]. right. unfold Sum, n0, n1, n2, m0, m1, m2. ring.
Qed.
Print Assumptions C56_space3_forward_of_backward_f64.

(** ** The hypotheses can be met: with correctly rounded libraries, every base of
    at most 2^20 points is accurate enough. *)
Lemma ideal_lengths : ext_ok (ideal 53 1024 eq_refl eq_refl).
Proof.
  split; [|split; [|split]]; intros; cbn [ideal x_dct1 x_fft x_r2c x_c2r]; [unfold ideal_dct1|unfold ideal_fft|unfold ideal_r2c|unfold ideal_c2r];
    (match goal with |- context [if ?b then _ else _] => destruct b end); rewrite ?repeat_length, ?map_length, ?seq_length; reflexivity.
Qed.
Theorem C56_accurate_bases_exist :
  exists E : ext f64, ext_ok E /\
    (forall n, (2 <= n)%nat -> (Z.of_nat n <= 2 ^ 20)%Z -> forall T (V : Vec f64 T), exists b, new_chebyshev n = Ok b /\
       f64_orthogonal E (bpow radix2 (-52)) eta64 false f64 f64 T (r2r_ops_x E b) f64_real f64_real) /\
    (forall n, (1 <= n)%nat -> (Z.of_nat n <= 2 ^ 20)%Z -> exists f, r2c_new n = Ok f /\
       f64_orthogonal E (bpow radix2 (-52)) eta64 true f64 (cplx f64) (cplx f64) (r2c_ops_x E f) f64_real f64_cplx) /\
    (forall n, (1 <= n)%nat -> (Z.of_nat n <= 2 ^ 20)%Z -> exists f, c2c_new n = Ok f /\
       f64_orthogonal E (bpow radix2 (-52)) eta64 false (cplx f64) (cplx f64) (cplx f64) (c2c_ops_x E f) f64_cplx f64_cplx).
Proof.
  exists (ideal 53 1024 eq_refl eq_refl). split. apply ideal_lengths.
  assert (E2 : bpow radix2 (-52) = 2 * ieee_u 53). { unfold ieee_u. change (-52)%Z with (1 + - (53))%Z. rewrite bpow_plus. reflexivity. }
  rewrite E2. change eta64 with (ieee_eta 53 1024). split; [|split].
  - intros n Hn Hz T V. exists (BChebyshev (mk_cheb n n)). assert (HB : new_chebyshev (A := f64) n = Ok (BChebyshev (mk_cheb n n))). { unfold new_chebyshev, cheb_new. apply Nat.leb_le in Hn. rewrite Hn. reflexivity. }
    split; auto. destruct (ideal_dct1_ok 53 1024 eq_refl eq_refl (ltac:(lia)) (ltac:(lia)) n). eapply fo_chebyshev; eauto.
  - intros n Hn Hz. exists (mk_r2c n (n / 2 + 1)). assert (HB : r2c_new n = Ok (mk_r2c n (n / 2 + 1))). { unfold r2c_new. apply Nat.leb_le in Hn. rewrite Hn. reflexivity. }
    split; auto. destruct (ideal_r2c_ok 53 1024 eq_refl eq_refl (ltac:(lia)) (ltac:(lia)) n). destruct (ideal_c2r_ok 53 1024 eq_refl eq_refl (ltac:(lia)) (ltac:(lia)) n Hn). eapply fo_r2c; eauto.
  - intros n Hn Hz. exists (mk_c2c n n). assert (HB : c2c_new n = Ok (mk_c2c n n)). { unfold c2c_new. apply Nat.leb_le in Hn. rewrite Hn. reflexivity. }
    split; auto. eapply fo_c2c; eauto; intros t; apply (ideal_fft_ok 53 1024 eq_refl eq_refl); lia.
Qed.

(** A field of 4 x 5 points on Space2 of a real Fourier and a Chebyshev base: each
    entry comes back within 2^-38 of its value. *)
Lemma esize_pos {T} (e : fel T) a : 0 <= esize e a.
Proof. unfold esize. pose proof (Rabs_pos (fst (ev e a))). pose proof (Rabs_pos (snd (ev e a))). lra. Qed.
Definition field45 : arr f64 := mk_arr [4; 5]%nat true (tenths ++ tenths ++ tenths ++ tenths).
Example C56_example_space2 :
  exists (E : ext f64) b1, let sp := mk_space2 (r2c_ops_x E (mk_r2c 4 3)) (r2r_ops_x E b1) in new_chebyshev 5 = Ok b1 /\ exists zo, zip_ok zo /\
  exists c y, s2_forward zo sp field45 = Ok c /\ s2_backward zo sp c = Ok y /\
    forall i j, (i < 4)%nat -> (j < 5)%nat -> is_finite (get y [i; j]) = true /\ Rabs (B2R (get y [i; j]) - B2R (get field45 [i; j])) <= bpow radix2 (-38).
Proof.
  destruct C56_accurate_bases_exist as (E & HE & HC & HR & _). destruct (HC 5%nat ltac:(lia) ltac:(cbn; lia) (cplx f64) _) as (b1 & N1 & H1). destruct (HR 4%nat ltac:(lia) ltac:(cbn; lia)) as (f & N0 & H0).
  exists E, b1. intros sp. split; auto. destruct some_zip as [zo HZ]. exists zo. split; auto. injection N0 as <-.
  apply new_chebyshev_inv in N1 as [_ ->].
  assert (V : forall j, (j < 5)%nat -> is_finite tenths.[j] = true /\ Rabs (B2R tenths.[j]) <= 1).
  { intros j Hj. destruct j as [|[|[|[|[|]]]]]; try lia; (split; [vm_compute; reflexivity|]); rewrite <- SF2R_B2SF;
      match goal with |- Rabs (SF2R _ ?t) <= _ => let t' := eval vm_compute in t in replace t with t' by (vm_compute; reflexivity) end;
      cbn [SF2R SpecFloat.cond_Zopp]; unfold F2R; cbn [Fnum Fexp cond_Zopp]; rewrite Rabs_pos_eq; cbn; lra. }
  assert (VG : forall i j, (i < 4)%nat -> (j < 5)%nat -> get field45 [i; j] = tenths.[j]).
  { intros i j Hi Hj. destruct i as [|[|[|[|]]]]; try lia; destruct j as [|[|[|[|[|]]]]]; try lia; reflexivity. }
  set (S := rsum 4 (fun i => rsum 5 (fun j => esize f64_real (get field45 [i; j])))).
  assert (S1 : 0 <= S <= 32). { split. apply rsum_pos; intros; apply rsum_pos; intros; apply esize_pos.
    eapply Rle_trans. apply (rsum_le 4 _ (fun _ => 5)). intros i Hi. eapply Rle_trans. apply (rsum_le 5 _ (fun _ => 1)). intros j Hj. rewrite VG by auto. unfold esize. cbn [ev f64_real fst snd]. rewrite Rabs_R0. destruct (V j Hj). unfold f64_val. lra.
    rewrite rsum_const. cbn; lra. rewrite rsum_const. cbn; lra. }
  destruct (C56_space2_backward_of_forward_f64 E HE (bpow radix2 (-52)) eta64 ltac:(cbn; lra) ltac:(pose proof eta1; lra) true false _ _ _ _ _ _ f64_real f64_real f64_cplx H0 H1 dflt_num dflt_num dflt_vec dflt_vec zo HZ field45) as (c & y & Ec & Ey & _ & H).
  - repeat split.
  - intros i j Hi Hj. rewrite (VG i j Hi Hj). apply V; auto.
  - change (S <= R800). apply Rle_trans with (bpow radix2 5). change (bpow radix2 5) with 32. apply S1. apply bpow_le; lia.
  - exists c, y. split; [exact Ec|]. split; [exact Ey|]. intros i j Hi Hj. destruct (H i j Hi Hj) as [F B]. split; [exact F|]. clear H Ec Ey.
    change (edist f64_real (get y [i; j]) (ev f64_real (get field45 [i; j])) <= 178 * (bpow radix2 (-52) + u64) * S + 90 * (INR 4 * INR 5) ^ 2 * (eta64 + eta64)) in B.
    unfold edist in B. cbn [ev f64_real fst snd] in B. rewrite (Rminus_diag_eq 0 0 eq_refl), Rabs_R0, Rplus_0_r in B. eapply Rle_trans; [exact B|]. clear B F V VG.
    assert (E1 : eta64 <= bpow radix2 (-60)) by (apply bpow_le; lia). pose proof (bpow_gt_0 radix2 (-1075)) as E0. revert S1. generalize S. revert E1 E0. generalize eta64. clear. intros et E1 E0 S S1.
    change (bpow radix2 (-60)) with (/ IZR (2 ^ 60)) in E1. change (bpow radix2 (-52)) with (/ IZR (2 ^ 52)). change (bpow radix2 (-53)) with (/ IZR (2 ^ 53)). change (bpow radix2 (-38)) with (/ IZR (2 ^ 38)).
    replace (INR 5) with 5 by (cbn; lra). replace (INR 4) with 4 by (cbn; lra). cbv [Z.pow Z.pow_pos Pos.iter Z.mul Pos.mul] in *. lra.
Qed.
