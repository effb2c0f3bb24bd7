(** C54, continued: the Chebyshev derivative of any order; no overflow; the
    statements for f64 and f32. *)
From Coq Require Import List Arith ZArith Reals Bool Lra Lia.
From Flocq Require Import Core BinarySingleNaN.
From Verif Require Import Base Num Linalg Stencils Cheb ChebFacts Compo CompoProofs AnyArith ArithSteps FourierF64 Rounding RndTdma RndDirichlet RndGrad RndFinite PropRound.
Import ListNotations.
Local Open Scope R_scope.

(** The derivative of order d, against the same program run in exact arithmetic
    on the values ([exact]) and on their absolute values ([mag]).  [cp p] is a
    coordinate of an element: the number, its real or its imaginary part. *)
Theorem C54_gradient :
  forall A (N : Num A) u eta rnd zmax inr fin val, float_arith N u eta rnd zmax inr fin val ->
  forall T (V : Vec A T) I (cp : I -> T -> A), grad_elem fin val rnd cp ->
  forall n c d (a o b : list T), (3 <= n)%nat -> (2 * Z.of_nat n <= zmax)%Z -> INR n * u <= 1 ->
  cheb_new n = Ok c -> length a = n -> length o = n -> cheb_gradient c a o d = Ok b ->
  forall p (ox exact mag : list R), length ox = n ->
  cheb_gradient (A := R) (N := num_R) c (map (fun x => val (cp p x)) a) ox d = Ok exact ->
  cheb_gradient (A := R) (N := num_R) c (map (fun x => Rabs (val (cp p x))) a) ox d = Ok mag ->
  forall k, (k < n)%nat -> fin (cp p b.[k]) ->
  Rabs (val (cp p b.[k]) - exact.[k]) <=
    ((1 + 2 * INR n * u) ^ d - 1) * mag.[k] + INR d * ((1 + 2 * INR n * u) * (INR n * INR n)) ^ d * (3 * INR n * eta).
Proof.
  intros A N u eta rnd zmax inr fin val FA T V I cp GE n c d a o b Hn Hz Hu Hc La Lo E p ox ex mag Lox Ex Em k Hk F.
  unfold cheb_new in Hc. destruct (Nat.leb_spec 2 n) as [_|]; [|lia]. cbn [assertb bind] in Hc. injection Hc as <-.
  assert (EX : forall (l r : list R), length l = n -> cheb_gradient (A := R) (N := num_R) (mk_cheb n n) l ox d = Ok r ->
    forall i, (i < n)%nat -> r.[i] = Gpow n d (fun j => l.[j]) i).
  { intros l r Ll El i Hi.
    assert (Zr : (2 * Z.of_nat n <= Z.max 1024 (2 * Z.of_nat n))%Z) by lia.
    destruct (cheb_gradient_err (exact_float_arith (Z.max 1024 (2 * Z.of_nat n)) ltac:(lia)) (vecC_elem (exact_float_arith 1024 ltac:(lia)) (vecC_self num_R)) n l ox r d Hn Zr ltac:(lra) Ll Lox El) as [_ H].
    specialize (H tt i Hi Logic.I). unfold grad_eta in H. replace (1 + 2 * INR n * 0) with 1 in H by ring. rewrite !pow1 in H.
    rewrite !Rminus_eq_0, !Rmult_0_l, !Rmult_0_r, !Rplus_0_r in H. apply Rabs_le0 in H. apply Rminus_diag_uniq in H. exact H. }
  destruct (cheb_gradient_err FA GE n a o b d Hn Hz Hu La Lo E) as [_ H]. specialize (H p k Hk F).
  assert (G1 : ex.[k] = Gpow n d (gX val cp p a) k).
  { rewrite (EX _ _ (eq_trans (map_length _ _) La) Ex k Hk). clear - La Hn Hk. revert k Hk.
    induction d as [|d IH]; intros k Hk; cbn [Gpow]. rewrite (at_map (fun x => val (cp p x)) a k) by lia. reflexivity. apply Gop_ext; auto. intros j [Hj _]. apply IH. lia. }
  assert (G2 : mag.[k] = Gpow n d (fun j => Rabs (gX val cp p a j)) k).
  { rewrite (EX _ _ (eq_trans (map_length _ _) La) Em k Hk). clear - La Hn Hk. revert k Hk.
    induction d as [|d IH]; intros k Hk; cbn [Gpow]. rewrite (at_map (fun x => Rabs (val (cp p x))) a k) by lia. reflexivity. apply Gop_ext; auto. intros j [Hj _]. apply IH. lia. }
  rewrite G1, G2. exact H.
Qed.

(** Small enough input never overflows: to_ortho and from_ortho return, and
    every intermediate and final coefficient is finite. *)
Theorem C54_dirichlet_no_overflow :
  forall A (N : Num A) u eta rnd zmax inr fin val, float_arith N u eta rnd zmax inr fin val ->
  forall T (V : Vec A T) (VC : VecC N T V) n b (c o o' : list T) Cm, (5 <= n)%nat -> INR n * u <= 1 ->
  compo_new KDirichlet n = Ok b -> length c = (n - 2)%nat -> length o = n -> length o' = (n - 2)%nat ->
  0 <= Cm -> inr (81 * INR n * INR n * Cm) ->
  (forall p k, (k < n - 2)%nat -> fin (cp p c.[k]) /\ Rabs (val (cp p c.[k])) <= Cm) ->
  exists a x, compo_to_ortho b c o = Ok a /\ compo_from_ortho b a o' = Ok x /\ length a = n /\ length x = (n - 2)%nat /\
    (forall p k, (k < n)%nat -> fin (cp p a.[k])) /\ (forall p k, (k < n - 2)%nat -> fin (cp p x.[k])).
Proof.
  intros A N u eta rnd zmax inr fin val FA T V VC n b c o o' Cm Hn Hu Hb Lc Lo Lo' C0 HI HC. destruct (dir_inv n b Hb) as [Hn4 ->].
  assert (N5 : 5 <= INR n). { apply le_INR in Hn. replace (INR 5) with 5 in Hn by (cbn; ring). auto. }
  assert (B2 : Cm <= INR n * INR n * Cm).
  { rewrite <- (Rmult_1_l Cm) at 1. apply Rmult_le_compat_r; auto. pose proof (Rmult_le_compat 1 (INR n) 1 (INR n)). lra. }
  destruct (dir_to_ortho_fin FA n c o Cm Hn4 Lc Lo HC) as (a & Ea & La & Ha).
  { eapply (inr_le FA); [| |exact HI]. lra. rewrite Rabs_pos_eq; lra. }
  destruct (dir_from_ortho_fin FA n a o' (3 * Cm) Hn La Lo' Hu ltac:(lra) Ha) as (x & Ex & Lx & Hx).
  { eapply (inr_le FA); [| |exact HI]. lra. rewrite Rabs_pos_eq; lra. }
  exists a, x. split; auto. split; auto. split; auto. split; auto. split; intros; [apply Ha|apply Hx]; auto.
Qed.

(** f64 *)
Lemma n_bounds (n : nat) z : (Z.of_nat n <= z)%Z -> INR n <= IZR z.
Proof. intros. rewrite INR_IZR_INZ. apply IZR_le. auto. Qed.
Lemma bp e : bpow radix2 (- Z.pos e) = / IZR (Z.pow_pos 2 e).
Proof. reflexivity. Qed.

Theorem C54_f64_dirichlet_round_trip :
  forall T (V : Vec f64 T) (VC : VecC num_f64 T V) n b (c o o' : list T) Cm, (5 <= n)%nat -> (Z.of_nat n <= 2 ^ 25)%Z ->
  compo_new (A := f64) KDirichlet n = Ok b -> length c = (n - 2)%nat -> length o = n -> length o' = (n - 2)%nat ->
  0 <= Cm <= bpow radix2 960 ->
  (forall p k, (k < n - 2)%nat -> is_finite (cp p c.[k]) = true /\ Rabs (B2R (cp p c.[k])) <= Cm) ->
  exists a x, compo_to_ortho b c o = Ok a /\ compo_from_ortho b a o' = Ok x /\ length a = n /\ length x = (n - 2)%nat /\
    forall p k, (k < n - 2)%nat -> is_finite (cp p x.[k]) = true /\
      Rabs (B2R (cp p x.[k]) - B2R (cp p c.[k])) <= (INR n + 1) ^ 2 * (bpow radix2 (-51) * Cm + bpow radix2 (-1074) * (1 + 2 * Cm)).
Proof.
  intros T V VC n b c o o' Cm Hn Hz Hb Lc Lo Lo' [C0 C1] HC. pose proof (n_bounds _ _ Hz) as HN.
  assert (N5 : 5 <= INR n). { apply le_INR in Hn. replace (INR 5) with 5 in Hn by (cbn; ring). auto. }
  assert (SQ : INR n * INR n <= IZR (2 ^ 25) * IZR (2 ^ 25)) by (apply Rmult_le_compat; lra).
  assert (E1 : bpow radix2 (-1075) <= bpow radix2 (-60)) by (apply bpow_le; lia).
  change (bpow radix2 (-60)) with (/ IZR (2 ^ 60)) in E1.
  assert (E2 : bpow radix2 (-51) = 4 * bpow radix2 (-53)). { replace (-51)%Z with (2 + -53)%Z by lia. rewrite bpow_plus. reflexivity. }
  assert (E3 : bpow radix2 (-1074) = 2 * bpow radix2 (-1075)). { replace (-1074)%Z with (1 + -1075)%Z by lia. rewrite bpow_plus. reflexivity. }
  assert (E0 : bpow radix2 (-53) = / IZR (2 ^ 53)) by reflexivity.
  destruct (C54_dirichlet_no_overflow f64 num_f64 _ _ _ _ _ _ _ f64_float_arith T V VC n b c o o' Cm Hn) as (a & x & Ea & Ex & La & Lx & Fa & Fx); auto.
  - rewrite E0. apply Rle_trans with (IZR (2 ^ 25) * / IZR (2 ^ 53)). apply Rmult_le_compat_r; auto. apply Rlt_le, Rinv_0_lt_compat. cbn; lra. cbn. lra.
  - unfold ieee_inr. rewrite Rabs_pos_eq. 2: { apply Rmult_le_pos; auto. apply Rmult_le_pos; lra. }
    apply Rle_lt_trans with ((81 * (IZR (2 ^ 25) * IZR (2 ^ 25))) * bpow radix2 960).
    + apply Rmult_le_compat; auto. apply Rmult_le_pos; lra. lra.
    + replace 1024%Z with (64 + 960)%Z by lia. rewrite bpow_plus. apply Rmult_lt_compat_r. apply bpow_gt_0. cbn. lra.
  - exists a, x. split; auto. split; auto. split; auto. split; auto. intros p k Hk. split. apply Fx; auto. rewrite E2, E3.
    destruct (C54_dirichlet_round_trip f64 num_f64 _ _ _ _ _ _ _ f64_float_arith T V VC n b c o o' a x Hn) with (p := p) (Cm := Cm) (k := k) as [_ R]; auto.
    + rewrite E0. apply Rle_trans with (3 * (IZR (2 ^ 25) + 1) ^ 2 * (/ IZR (2 ^ 53) + / IZR (2 ^ 60))). 2: { cbn. lra. }
      apply Rmult_le_compat; try lra.
      * apply Rmult_le_pos. lra. apply pow_le. lra.
      * rewrite <- E0. pose proof (bpow_gt_0 radix2 (-53)). pose proof (bpow_gt_0 radix2 (-1075)). lra.
    + intros i Hi. apply HC; auto.
Qed.

Theorem C54_f32_dirichlet_round_trip :
  forall T (V : Vec f32 T) (VC : VecC num_f32 T V) n b (c o o' : list T) Cm, (5 <= n)%nat -> (Z.of_nat n <= 2 ^ 11)%Z ->
  compo_new (A := f32) KDirichlet n = Ok b -> length c = (n - 2)%nat -> length o = n -> length o' = (n - 2)%nat ->
  0 <= Cm <= bpow radix2 96 ->
  (forall p k, (k < n - 2)%nat -> is_finite (cp p c.[k]) = true /\ Rabs (B2R (cp p c.[k])) <= Cm) ->
  exists a x, compo_to_ortho b c o = Ok a /\ compo_from_ortho b a o' = Ok x /\ length a = n /\ length x = (n - 2)%nat /\
    forall p k, (k < n - 2)%nat -> is_finite (cp p x.[k]) = true /\
      Rabs (B2R (cp p x.[k]) - B2R (cp p c.[k])) <= (INR n + 1) ^ 2 * (bpow radix2 (-22) * Cm + bpow radix2 (-149) * (1 + 2 * Cm)).
Proof.
  intros T V VC n b c o o' Cm Hn Hz Hb Lc Lo Lo' [C0 C1] HC. pose proof (n_bounds _ _ Hz) as HN.
  assert (N5 : 5 <= INR n). { apply le_INR in Hn. replace (INR 5) with 5 in Hn by (cbn; ring). auto. }
  assert (SQ : INR n * INR n <= IZR (2 ^ 11) * IZR (2 ^ 11)) by (apply Rmult_le_compat; lra).
  assert (E1 : bpow radix2 (-150) <= bpow radix2 (-60)) by (apply bpow_le; lia).
  change (bpow radix2 (-60)) with (/ IZR (2 ^ 60)) in E1.
  assert (E2 : bpow radix2 (-22) = 4 * bpow radix2 (-24)). { replace (-22)%Z with (2 + -24)%Z by lia. rewrite bpow_plus. reflexivity. }
  assert (E3 : bpow radix2 (-149) = 2 * bpow radix2 (-150)). { replace (-149)%Z with (1 + -150)%Z by lia. rewrite bpow_plus. reflexivity. }
  assert (E0 : bpow radix2 (-24) = / IZR (2 ^ 24)) by reflexivity.
  destruct (C54_dirichlet_no_overflow f32 num_f32 _ _ _ _ _ _ _ f32_float_arith T V VC n b c o o' Cm Hn) as (a & x & Ea & Ex & La & Lx & Fa & Fx); auto.
  - rewrite E0. apply Rle_trans with (IZR (2 ^ 11) * / IZR (2 ^ 24)). apply Rmult_le_compat_r; auto. apply Rlt_le, Rinv_0_lt_compat. cbn; lra. cbn. lra.
  - unfold ieee_inr. rewrite Rabs_pos_eq. 2: { apply Rmult_le_pos; auto. apply Rmult_le_pos; lra. }
    apply Rle_lt_trans with ((81 * (IZR (2 ^ 11) * IZR (2 ^ 11))) * bpow radix2 96).
    + apply Rmult_le_compat; auto. apply Rmult_le_pos; lra. lra.
    + replace 128%Z with (32 + 96)%Z by lia. rewrite bpow_plus. apply Rmult_lt_compat_r. apply bpow_gt_0. cbn. lra.
  - exists a, x. split; auto. split; auto. split; auto. split; auto. intros p k Hk. split. apply Fx; auto. rewrite E2, E3.
    destruct (C54_dirichlet_round_trip f32 num_f32 _ _ _ _ _ _ _ f32_float_arith T V VC n b c o o' a x Hn) with (p := p) (Cm := Cm) (k := k) as [_ R]; auto.
    + rewrite E0. apply Rle_trans with (3 * (IZR (2 ^ 11) + 1) ^ 2 * (/ IZR (2 ^ 24) + / IZR (2 ^ 60))). 2: { cbn. lra. }
      apply Rmult_le_compat; try lra.
      * apply Rmult_le_pos. lra. apply pow_le. lra.
      * rewrite <- E0. pose proof (bpow_gt_0 radix2 (-24)). pose proof (bpow_gt_0 radix2 (-150)). lra.
    + intros i Hi. apply HC; auto.
Qed.

(** Doubling is exact in a binary format. *)
Lemma ieee_dbl prec emax (HP : Prec_gt_0 prec) (HL : Prec_lt_emax prec emax) x : ieee_rnd prec emax x = x -> ieee_rnd prec emax (2 * x) = 2 * x.
Proof.
  intros H. apply format_rnd; auto. apply format_rnd in H; auto. apply FLT_format_generic in H; auto. destruct H as [f E1 E2 E3].
  apply generic_format_FLT. exists (Float radix2 (Fnum f) (Fexp f + 1)); cbn [Fnum Fexp]; auto; [|lia].
  rewrite E1. unfold F2R. cbn [Fnum Fexp]. rewrite bpow_plus. change (bpow radix2 1) with 2. ring.
Qed.

Lemma f64_sizes (n : nat) : (Z.of_nat n <= 2 ^ 52)%Z -> (2 * Z.of_nat n <= 2 ^ 53)%Z /\ INR n * bpow radix2 (-53) <= 1 /\ 2 * INR n * bpow radix2 (-53) = INR n * bpow radix2 (-52).
Proof.
  intros H. split. lia. split.
  - apply n_bounds in H. apply Rle_trans with (IZR (2 ^ 52) * bpow radix2 (-53)). apply Rmult_le_compat_r; auto. apply bpow_ge_0. cbn. lra.
  - replace (-52)%Z with (1 + -53)%Z by lia. rewrite bpow_plus. change (bpow radix2 1) with 2. ring.
Qed.

Theorem C54_f64_gradient :
  forall n c d (a o b : list f64), (3 <= n)%nat -> (Z.of_nat n <= 2 ^ 52)%Z ->
  cheb_new n = Ok c -> length a = n -> length o = n -> cheb_gradient c a o d = Ok b ->
  forall (ox exact mag : list R), length ox = n ->
  cheb_gradient (A := R) (N := num_R) c (map B2R a) ox d = Ok exact ->
  cheb_gradient (A := R) (N := num_R) c (map (fun x => Rabs (B2R x)) a) ox d = Ok mag ->
  forall k, (k < n)%nat -> is_finite b.[k] = true ->
  Rabs (B2R b.[k] - exact.[k]) <=
    ((1 + INR n * bpow radix2 (-52)) ^ d - 1) * mag.[k] + INR d * ((1 + INR n * bpow radix2 (-52)) * (INR n * INR n)) ^ d * (3 * INR n * bpow radix2 (-1075)).
Proof.
  intros n c d a o b Hn Hz Hc La Lo E ox ex mag Lox Ex Em k Hk F. destruct (f64_sizes n Hz) as (S1 & S2 & S3). rewrite <- S3.
  exact (C54_gradient f64 num_f64 _ _ _ _ _ _ _ f64_float_arith f64 vec_self unit _ (vecC_elem f64_float_arith (vecC_self num_f64)) n c d a o b Hn S1 S2 Hc La Lo E tt ox ex mag Lox Ex Em k Hk F).
Qed.

(** Complex coefficients, with the operations of num_complex. *)
Theorem C54_f64_gradient_complex :
  forall n c d (a o b : list (cplx f64)), (3 <= n)%nat -> (Z.of_nat n <= 2 ^ 52)%Z ->
  cheb_new n = Ok c -> length a = n -> length o = n -> cheb_gradient (V := vec_num_complex) c a o d = Ok b ->
  forall p (ox exact mag : list R), length ox = n ->
  cheb_gradient (A := R) (N := num_R) c (map (fun x => B2R (re_im p x)) a) ox d = Ok exact ->
  cheb_gradient (A := R) (N := num_R) c (map (fun x => Rabs (B2R (re_im p x))) a) ox d = Ok mag ->
  forall k, (k < n)%nat -> is_finite (re_im p b.[k]) = true ->
  Rabs (B2R (re_im p b.[k]) - exact.[k]) <=
    ((1 + INR n * bpow radix2 (-52)) ^ d - 1) * mag.[k] + INR d * ((1 + INR n * bpow radix2 (-52)) * (INR n * INR n)) ^ d * (3 * INR n * bpow radix2 (-1075)).
Proof.
  intros n c d a o b Hn Hz Hc La Lo E p ox ex mag Lox Ex Em k Hk F. destruct (f64_sizes n Hz) as (S1 & S2 & S3). rewrite <- S3.
  exact (C54_gradient f64 num_f64 _ _ _ _ _ _ _ f64_float_arith (cplx f64) vec_num_complex bool _
    (num_complex_elem f64_float_arith (ieee_dbl 53 1024 eq_refl eq_refl)) n c d a o b Hn S1 S2 Hc La Lo E p ox ex mag Lox Ex Em k Hk F).
Qed.

(** ** The hypotheses are met, and there are errors to bound *)
Definition tenths : list f64 := map (fun k => ndiv (nofZ k) (nofZ 10)) [1; 2; 3; 7; 9]%Z.
Definition sf_list (l : res (list f64)) : list SpecFloat.spec_float := match l with Ok l => map B2SF l | _ => [] end.
(** A round trip through to_ortho and from_ortho of (0.1, 0.2, 0.3, 0.7, 0.9) in
    f64 returns finite numbers, but not the same ones. *)
Definition trip : res (list f64) :=
  let* b := compo_new (A := f64) KDirichlet 7 in let* a := compo_to_ortho b tenths (repeat n0 7) in compo_from_ortho b a (repeat n0 5).
Example C54_example_round_trip :
  forallb (fun x => is_finite x) (match trip with Ok x => x | _ => [] end) = true /\ length (sf_list trip) = 5%nat /\
  sf_list trip <> map B2SF tenths.
Proof. split; [|split]; [vm_compute; reflexivity|vm_compute; reflexivity|]. intros H. vm_compute in H. discriminate. Qed.
Example C54_example_gradient :
  let b := cheb_gradient (mk_cheb 5 5) tenths (repeat n0 5) 2 in
  forallb (fun x => is_finite x) (match b with Ok x => x | _ => [] end) = true /\ length (sf_list b) = 5%nat.
Proof. split; vm_compute; reflexivity. Qed.
