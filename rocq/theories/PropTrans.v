(** C55: the transforms in floating point.  The transforms call rustdct, rustfft
    and realfft; LibAcc.v says what it means for these libraries to return the
    sums they document up to a relative error [dl] and an absolute error [zt].
    Whatever they are, and whatever the arithmetic (f32, f64, any correctly
    rounding arithmetic), the crate's transforms, built on them by scaling,
    reversing and alternating signs, are then accurate with explicit constants,
    for every size and every input whose transform is finite. *)
From Coq Require Import List Arith ZArith Reals Bool Lra Lia.
From Verif Require Import Base Num Linalg Stencils Cheb ChebPoly ChebDct ChebFacts Compo CompoProofs Fourier FourierFacts FourierProofs ExtLib Rounding RndTdma RndDirichlet RndNeumann LibAcc RndCheb RndFft RndR2c RndCompo PropRound.
Import ListNotations.
Local Open Scope R_scope.

(** ** Chebyshev *)
(** backward evaluates the series at the nodes *)
Theorem C55_cheb_backward :
  forall A (N : Num A) u eta rnd zmax inr fin val, float_arith N u eta rnd zmax inr fin val ->
  forall (E : ext A) n c dl zt (a o y : list A) (xs : list R),
  cheb_new n = Ok c -> 0 <= dl <= 1 -> 0 <= zt -> dct1_accurate E fin val n dl zt ->
  length a = n -> length o = n -> cheb_backward_x E c a o = Ok y -> (forall k, (k < n)%nat -> fin y.[k]) ->
  cheb_coords (A := R) c = Ok xs ->
  length y = n /\ (forall k, (k < n)%nat -> fin a.[k]) /\
  forall j, (j < n)%nat -> Rabs (val y.[j] - rsum n (fun k => val a.[k] * TT k xs.[j])) <=
    (21 / 10 * dl + u) * rsum n (fun k => Rabs (val a.[k])) + 2 * INR n * eta + zt.
Proof.
  intros A N u eta rnd zmax inr fin val FA E n c dl zt a o y xs Hc Hd Hzt HE La Lo Ey Fy Ex.
  pose proof (coords_ok n c Hc) as W. rewrite Ex in W. destruct W as [Lx Hx]. destruct (cheb_new_inv n c Hc) as [Hn ->].
  destruct (cheb_backward_err FA E n dl zt a o y Hn Hd Hzt HE La Lo Ey Fy) as (Ly & Fa & HB). split; auto. split; auto.
  intros j Hj. rewrite (Hx j Hj). exact (HB j Hj).
Qed.

(** forward returns the coefficients of the interpolating polynomial *)
Theorem C55_cheb_forward :
  forall A (N : Num A) u eta rnd zmax inr fin val, float_arith N u eta rnd zmax inr fin val ->
  forall (E : ext A) n c dl zt (x o a : list A) (xs : list R) (b : nat -> R),
  cheb_new n = Ok c -> (Z.of_nat n <= zmax)%Z -> INR n * eta <= u -> 0 <= dl <= 1 -> 0 <= zt -> dct1_accurate E fin val n dl zt ->
  length x = n -> length o = n -> cheb_forward_x E c x o = Ok a -> (forall k, (k < n)%nat -> fin a.[k]) ->
  cheb_coords (A := R) c = Ok xs -> (forall j, (j < n)%nat -> rsum n (fun k => b k * TT k xs.[j]) = val x.[j]) ->
  length a = n /\ (forall j, (j < n)%nat -> fin x.[j]) /\
  forall k, (k < n)%nat -> Rabs (val a.[k] - b k) <=
    (11 / 10 * dl + 4 * u) * (2 / INR (n - 1) * rsum n (fun j => Rabs (val x.[j]))) + 3 * INR n * eta + zt.
Proof.
  intros A N u eta rnd zmax inr fin val FA E n c dl zt x o a xs b Hc Hz Hs Hd Hzt HE Lx Lo Ea Fa Ex Hb.
  pose proof (coords_ok n c Hc) as W. rewrite Ex in W. destruct W as [Lxs Hx]. destruct (cheb_new_inv n c Hc) as [Hn ->].
  destruct (cheb_forward_err FA E n dl zt x o a Hn Hz Hs Hd Hzt HE Lx Lo Ea Fa) as (La & Fx & HF). split; auto. split; auto.
  intros k Hk. rewrite <- (Fex_Bex n b k Hn Hk). rewrite (Fex_ext n (Bex n b) (fun j => val x.[j]) k Hn). exact (HF k Hk).
  intros j Hj. rewrite <- (Hb j Hj), (Hx j Hj). reflexivity.
Qed.

Theorem C55_cheb_backward_of_forward :
  forall A (N : Num A) u eta rnd zmax inr fin val, float_arith N u eta rnd zmax inr fin val ->
  forall (E : ext A) n c dl zt (x o1 a o2 y : list A),
  cheb_new n = Ok c -> (Z.of_nat n <= zmax)%Z -> INR n * eta <= u -> 0 <= dl <= / 16 -> 0 <= zt -> dct1_accurate E fin val n dl zt ->
  length x = n -> length o1 = n -> length o2 = n ->
  cheb_forward_x E c x o1 = Ok a -> cheb_backward_x E c a o2 = Ok y -> (forall k, (k < n)%nat -> fin y.[k]) ->
  (forall j, (j < n)%nat -> fin x.[j]) /\
  forall j, (j < n)%nat -> Rabs (val y.[j] - val x.[j]) <=
    (16 * dl + 24 * u) * rsum n (fun k => Rabs (val x.[k])) + 5 * INR n ^ 2 * eta + 2 * INR n * zt.
Proof.
  intros A N u eta rnd zmax inr fin val FA E n c dl zt x o1 a o2 y Hc Hz Hs Hd Hzt HE Lx L1 L2 Ea Ey Fy. destruct (cheb_new_inv n c Hc) as [Hn ->].
  replace (INR n ^ 2) with (INR n * INR n) by ring. exact (cheb_bwd_fwd_err FA E n dl zt x o1 a o2 y Hn Hz Hs Hd Hzt HE Lx L1 L2 Ea Ey Fy).
Qed.
Theorem C55_cheb_forward_of_backward :
  forall A (N : Num A) u eta rnd zmax inr fin val, float_arith N u eta rnd zmax inr fin val ->
  forall (E : ext A) n c dl zt (a o1 y o2 b : list A),
  cheb_new n = Ok c -> (Z.of_nat n <= zmax)%Z -> INR n * eta <= u -> 0 <= dl <= / 16 -> 0 <= zt -> dct1_accurate E fin val n dl zt ->
  length a = n -> length o1 = n -> length o2 = n ->
  cheb_backward_x E c a o1 = Ok y -> cheb_forward_x E c y o2 = Ok b -> (forall k, (k < n)%nat -> fin b.[k]) ->
  (forall k, (k < n)%nat -> fin a.[k]) /\
  forall k, (k < n)%nat -> Rabs (val b.[k] - val a.[k]) <=
    (14 * dl + 21 * u) * rsum n (fun k => Rabs (val a.[k])) + 13 * INR n * eta + 6 * zt.
Proof.
  intros A N u eta rnd zmax inr fin val FA E n c dl zt a o1 y o2 b Hc Hz Hs Hd Hzt HE La L1 L2 Ey Eb Fb. destruct (cheb_new_inv n c Hc) as [Hn ->].
  exact (cheb_fwd_bwd_err FA E n dl zt a o1 y o2 b Hn Hz Hs Hd Hzt HE La L1 L2 Ey Eb Fb).
Qed.

(** ** Composite bases *)
(** backward of the Dirichlet base evaluates sum_k c_k (T_k - T_(k+2)) at the nodes *)
Lemma rsum_stencil n (c q : nat -> R) (T : nat -> R) : (2 <= n)%nat ->
  rsum n (fun k => ((if (k <? n - 2)%nat then c k else 0) - (if (k <? 2)%nat then 0 else q (k - 2)%nat * c (k - 2)%nat)) * T k) =
  rsum (n - 2) (fun k => c k * (T k - q k * T (k + 2)%nat)).
Proof.
  intros Hn. rewrite (rsum_ext n _ (fun k => (if (k <? n - 2)%nat then c k * T k else 0) - (if (k <? 2)%nat then 0 else (fun j => q j * c j * T (j + 2)%nat) (k - 2)%nat))).
  - rewrite rsum_sub, (rsum_head2 n (fun k => c k * T k)), (rsum_tail2 n (fun j => q j * c j * T (j + 2)%nat)) by auto. rewrite <- rsum_sub. apply rsum_ext. intros. ring.
  - intros k Hk. destruct (Nat.ltb_spec k (n - 2)), (Nat.ltb_spec k 2); try ring; replace (k - 2 + 2)%nat with k by lia; ring.
Qed.
Theorem C55_dirichlet_backward :
  forall A (N : Num A) u eta rnd zmax inr fin val, float_arith N u eta rnd zmax inr fin val ->
  forall (E : ext A) n b ch dl zt (c o y : list A) (xs : list R),
  compo_new KDirichlet n = Ok b -> 0 <= dl <= 1 -> 0 <= zt -> dct1_accurate E fin val n dl zt ->
  length c = (n - 2)%nat -> length o = n -> compo_backward_x E b c o = Ok y -> (forall k, (k < n)%nat -> fin y.[k]) ->
  cheb_new n = Ok ch -> cheb_coords (A := R) ch = Ok xs ->
  length y = n /\ (forall k, (k < n - 2)%nat -> fin c.[k]) /\
  forall j, (j < n)%nat -> Rabs (val y.[j] - rsum (n - 2) (fun k => val c.[k] * (TT k xs.[j] - TT (k + 2) xs.[j]))) <=
    (5 * dl + 5 * u) * rsum (n - 2) (fun k => Rabs (val c.[k])) + 2 * INR n * eta + zt.
Proof.
  intros A N u eta rnd zmax inr fin val FA E n b ch dl zt c o y xs Hb Hd Hzt HE Lc Lo Ey Fy Hch Ex. destruct (dir_inv n b Hb) as [Hn ->].
  pose proof (coords_ok n ch Hch) as W. rewrite Ex in W. destruct W as [Lx Hx].
  destruct (dir_backward_err FA E n dl zt c o y Hn Hd Hzt HE Lc Lo Ey Fy) as (Ly & Fc & HB). split; auto. split; auto. intros j Hj.
  assert (EQ : Bex n (dir_coef n (fun k => val c.[k])) j = rsum (n - 2) (fun k => val c.[k] * (TT k xs.[j] - TT (k + 2) xs.[j]))).
  { unfold Bex. rewrite (Hx j Hj). rewrite (rsum_ext (n - 2) (fun k => val c.[k] * (TT k (node n j) - TT (k + 2) (node n j))) (fun k => (fun i => val c.[i]) k * ((fun i => TT i (node n j)) k - (fun _ => 1) k * (fun i => TT i (node n j)) (k + 2)%nat))) by (intros; ring).
    rewrite <- (rsum_stencil n (fun k => val c.[k]) (fun _ => 1) (fun k => TT k (node n j))) by lia. apply rsum_ext. intros k Hk. unfold dir_coef. destruct (k <? n - 2), (k <? 2); ring. }
  rewrite <- EQ. exact (HB j Hj).
Qed.
(** ... and of the Neumann base sum_k c_k (T_k - (k/(k+2))^2 T_(k+2)) *)
Theorem C55_neumann_backward :
  forall A (N : Num A) u eta rnd zmax inr fin val, float_arith N u eta rnd zmax inr fin val ->
  forall (E : ext A) n b ch dl zt (c o y : list A) (xs : list R),
  compo_new KNeumann n = Ok b -> (Z.of_nat n * Z.of_nat n <= zmax)%Z -> INR n * eta <= u -> 0 <= dl <= 1 -> 0 <= zt -> dct1_accurate E fin val n dl zt ->
  length c = (n - 2)%nat -> length o = n -> compo_backward_x E b c o = Ok y -> (forall k, (k < n)%nat -> fin y.[k]) ->
  cheb_new n = Ok ch -> cheb_coords (A := R) ch = Ok xs ->
  length y = n /\ (forall k, (k < n - 2)%nat -> fin c.[k]) /\
  forall j, (j < n)%nat -> Rabs (val y.[j] - rsum (n - 2) (fun k => val c.[k] * (TT k xs.[j] - (INR k / (INR k + 2)) ^ 2 * TT (k + 2) xs.[j]))) <=
    (5 * dl + 9 * u) * rsum (n - 2) (fun k => Rabs (val c.[k])) + 9 * INR n * eta + zt.
Proof.
  intros A N u eta rnd zmax inr fin val FA E n b ch dl zt c o y xs Hb Hz Hs Hd Hzt HE Lc Lo Ey Fy Hch Ex. destruct (neu_inv n b Hb) as [Hn ->].
  pose proof (coords_ok n ch Hch) as W. rewrite Ex in W. destruct W as [Lx Hx].
  destruct (neu_backward_err FA E n dl zt c o y Hn Hz Hs Hd Hzt HE Lc Lo Ey Fy) as (Ly & Fc & HB). split; auto. split; auto. intros j Hj.
  assert (EQ : Bex n (neu_coef n (fun k => val c.[k])) j = rsum (n - 2) (fun k => val c.[k] * (TT k xs.[j] - (INR k / (INR k + 2)) ^ 2 * TT (k + 2) xs.[j]))).
  { unfold Bex. rewrite (Hx j Hj). etransitivity. exact (rsum_stencil n (fun k => val c.[k]) nq (fun k => TT k (node n j)) ltac:(lia)).
    apply rsum_ext. intros k Hk. unfold nq. pose proof (pos_INR k). f_equal. f_equal. f_equal. field. lra. }
  rewrite <- EQ. exact (HB j Hj).
Qed.

(** forward of the composite bases against the same program run in exact
    arithmetic with the exact DCT on the values of the same input *)
Theorem C55_dirichlet_forward :
  forall A (N : Num A) u eta rnd zmax inr fin val, float_arith N u eta rnd zmax inr fin val ->
  forall (E : ext A) n b bx dl zt (x o c : list A) (ox cx : list R),
  (5 <= n)%nat -> (Z.of_nat n <= zmax)%Z -> INR n * eta <= u -> 3 * (INR n + 1) ^ 2 * (u + eta) <= 1 -> 0 <= dl <= 1 -> 0 <= zt -> dct1_accurate E fin val n dl zt ->
  compo_new KDirichlet n = Ok b -> length x = n -> length o = (n - 2)%nat -> length ox = (n - 2)%nat ->
  compo_forward_x E b x o = Ok c -> (forall k, (k < n - 2)%nat -> fin c.[k]) ->
  compo_new (A := R) KDirichlet n = Ok bx -> compo_forward (A := R) bx (map val x) ox = Ok cx ->
  (forall j, (j < n)%nat -> fin x.[j]) /\
  forall Cm, (forall k, (k < n - 2)%nat -> Rabs cx.[k] <= Cm) ->
  forall k, (k < n - 2)%nat -> Rabs (val c.[k] - cx.[k]) <=
    (INR n + 1) ^ 2 * ((dl / 5 + u) * (2 / INR (n - 1) * rsum n (fun j => Rabs (val x.[j]))) + 4 * u * Cm + INR n * eta + zt / 7).
Proof.
  intros A N u eta rnd zmax inr fin val FA E n b bx dl zt x o c ox cx Hn Hz Hs Hsm Hd Hzt HE Hb Lx Lo Lox Ec Fc Hbx Ecx. destruct (dir_inv n b Hb) as [Hn4 ->].
  exact (dir_forward_err FA E n dl zt x o c ox cx bx Hn Hz Hs Hsm Hd Hzt HE Lx Lo Lox Ec Fc Hbx Ecx).
Qed.
Theorem C55_neumann_forward :
  forall A (N : Num A) u eta rnd zmax inr fin val, float_arith N u eta rnd zmax inr fin val ->
  forall (E : ext A) n b bx dl zt (x o c : list A) (ox cx : list R),
  (5 <= n)%nat -> (Z.of_nat n * Z.of_nat n <= zmax)%Z -> INR n * eta <= u -> 10 * (INR n ^ 2 * (u + eta)) <= 1 -> 0 <= dl <= 1 -> 0 <= zt -> dct1_accurate E fin val n dl zt ->
  compo_new KNeumann n = Ok b -> length x = n -> length o = (n - 2)%nat -> length ox = (n - 2)%nat ->
  compo_forward_x E b x o = Ok c -> (forall k, (k < n - 2)%nat -> fin c.[k]) ->
  compo_new (A := R) KNeumann n = Ok bx -> compo_forward (A := R) bx (map val x) ox = Ok cx ->
  (forall j, (j < n)%nat -> fin x.[j]) /\
  forall Cm, (forall k, (k < n - 2)%nat -> Rabs cx.[k] <= Cm) ->
  forall k, (k < n - 2)%nat -> Rabs (val c.[k] - cx.[k]) <=
    INR n ^ 2 * ((dl + 4 * u) * (2 / INR (n - 1) * rsum n (fun j => Rabs (val x.[j]))) + 12 * u * Cm + 3 * INR n * eta + zt).
Proof.
  intros A N u eta rnd zmax inr fin val FA E n b bx dl zt x o c ox cx Hn Hz Hs Hsm Hd Hzt HE Hb Lx Lo Lox Ec Fc Hbx Ecx. destruct (neu_inv n b Hb) as [Hn4 ->].
  exact (neu_forward_err FA E n dl zt x o c ox cx bx Hn Hz Hs Hsm Hd Hzt HE Lx Lo Lox Ec Fc Hbx Ecx).
Qed.
(** forward undoes backward *)
Theorem C55_dirichlet_forward_of_backward :
  forall A (N : Num A) u eta rnd zmax inr fin val, float_arith N u eta rnd zmax inr fin val ->
  forall (E : ext A) n b dl zt (c o1 y o2 x : list A),
  (5 <= n)%nat -> (Z.of_nat n <= zmax)%Z -> INR n * eta <= u -> 3 * (INR n + 1) ^ 2 * (u + eta) <= 1 -> 0 <= dl <= / 16 -> 0 <= zt -> dct1_accurate E fin val n dl zt ->
  compo_new KDirichlet n = Ok b -> length c = (n - 2)%nat -> length o1 = n -> length o2 = (n - 2)%nat ->
  compo_backward_x E b c o1 = Ok y -> compo_forward_x E b y o2 = Ok x -> (forall k, (k < n - 2)%nat -> fin x.[k]) ->
  (forall k, (k < n - 2)%nat -> fin c.[k]) /\
  forall k, (k < n - 2)%nat -> Rabs (val x.[k] - val c.[k]) <=
    (INR n + 1) ^ 2 * ((5 * dl + 12 * u) * rsum (n - 2) (fun k => Rabs (val c.[k])) + 3 * INR n * eta + zt).
Proof.
  intros A N u eta rnd zmax inr fin val FA E n b dl zt c o1 y o2 x Hn Hz Hs Hsm Hd Hzt HE Hb Lc L1 L2 Ey Ex Fx. destruct (dir_inv n b Hb) as [Hn4 ->].
  exact (dir_fwd_bwd_err FA E n dl zt c o1 y o2 x Hn Hz Hs Hsm Hd Hzt HE Lc L1 L2 Ey Ex Fx).
Qed.
Theorem C55_neumann_forward_of_backward :
  forall A (N : Num A) u eta rnd zmax inr fin val, float_arith N u eta rnd zmax inr fin val ->
  forall (E : ext A) n b dl zt (c o1 y o2 x : list A),
  (5 <= n)%nat -> (Z.of_nat n * Z.of_nat n <= zmax)%Z -> INR n * eta <= u -> 10 * (INR n ^ 2 * (u + eta)) <= 1 -> 0 <= dl <= / 16 -> 0 <= zt -> dct1_accurate E fin val n dl zt ->
  compo_new KNeumann n = Ok b -> length c = (n - 2)%nat -> length o1 = n -> length o2 = (n - 2)%nat ->
  compo_backward_x E b c o1 = Ok y -> compo_forward_x E b y o2 = Ok x -> (forall k, (k < n - 2)%nat -> fin x.[k]) ->
  (forall k, (k < n - 2)%nat -> fin c.[k]) /\
  forall k, (k < n - 2)%nat -> Rabs (val x.[k] - val c.[k]) <=
    INR n ^ 2 * ((15 * dl + 41 * u) * rsum (n - 2) (fun k => Rabs (val c.[k])) + 11 * INR n * eta + 3 * zt).
Proof.
  intros A N u eta rnd zmax inr fin val FA E n b dl zt c o1 y o2 x Hn Hz Hs Hsm Hd Hzt HE Hb Lc L1 L2 Ey Ex Fx. destruct (neu_inv n b Hb) as [Hn4 ->].
  exact (neu_fwd_bwd_err FA E n dl zt c o1 y o2 x Hn Hz Hs Hsm Hd Hzt HE Lc L1 L2 Ey Ex Fx).
Qed.

(** ** Complex Fourier.  (forward is the library's own transform.) *)
Section C2c.
Context {A : Type} {N : Num A} {u eta : R} {rnd : R -> R} {zmax : Z} {inr : R -> Prop} {fin : A -> Prop} {val : A -> R}.
Lemma Dft_inv_sums n (c : list (cplx A)) j : over n (Dft n true (cv (val := val) c) j) =
  (/ INR n * rsum n (fun k => val (fst c.[k]) * cos (2 * PI * INR (k * j) / INR n) - val (snd c.[k]) * sin (2 * PI * INR (k * j) / INR n)),
   / INR n * rsum n (fun k => val (fst c.[k]) * sin (2 * PI * INR (k * j) / INR n) + val (snd c.[k]) * cos (2 * PI * INR (k * j) / INR n))).
Proof.
  unfold over, Dft, csum, Rdiv at 1 2. cbn [fst snd]. f_equal; rewrite Rmult_comm; f_equal; apply rsum_ext; intros k _; rewrite E_sgn, Rmult_1_l; unfold cv; unc; ring.
Qed.
End C2c.
Theorem C55_c2c_backward :
  forall A (N : Num A) u eta rnd zmax inr fin val, float_arith N u eta rnd zmax inr fin val ->
  forall (E : ext A) n f dl zt (c o y : list (cplx A)),
  c2c_new n = Ok f -> (Z.of_nat n <= zmax)%Z -> INR n * eta <= u -> 0 <= dl <= 1 -> 0 <= zt -> fft_accurate E fin val true n dl zt ->
  length c = n -> length o = n -> c2c_backward_x E f c o = Ok y -> (forall k, (k < n)%nat -> cfin fin y.[k]) ->
  length y = n /\ (forall k, (k < n)%nat -> cfin fin c.[k]) /\
  forall j, (j < n)%nat ->
  let th k := 2 * PI * INR (k * j) / INR n in
  let e := (11 / 10 * dl + 4 * u) * (rsum n (fun k => Rabs (val (fst c.[k])) + Rabs (val (snd c.[k]))) / INR n) + 4 * INR n * eta + zt in
  Rabs (val (fst y.[j]) - / INR n * rsum n (fun k => val (fst c.[k]) * cos (th k) - val (snd c.[k]) * sin (th k))) <= e /\
  Rabs (val (snd y.[j]) - / INR n * rsum n (fun k => val (fst c.[k]) * sin (th k) + val (snd c.[k]) * cos (th k))) <= e.
Proof.
  intros A N u eta rnd zmax inr fin val FA E n f dl zt c o y Hf Hz Hs Hd Hzt HE Lc Lo Ey Fy. destruct (c2c_new_inv n f Hf) as [Hn ->].
  destruct (c2c_backward_err FA E n dl zt c o y Hn Hz Hs Hd Hzt HE Lc Lo Ey Fy) as (Ly & Fc & HB). split; auto. split; auto.
  intros j Hj th e. specialize (HB j Hj). cbv zeta in HB. rewrite Dft_inv_sums in HB. exact HB.
Qed.
Theorem C55_c2c_backward_of_forward :
  forall A (N : Num A) u eta rnd zmax inr fin val, float_arith N u eta rnd zmax inr fin val ->
  forall (E : ext A) n f dl zt (x o1 c o2 y : list (cplx A)),
  c2c_new n = Ok f -> (Z.of_nat n <= zmax)%Z -> INR n * eta <= u -> 0 <= dl <= / 16 -> 0 <= zt -> (forall inverse, fft_accurate E fin val inverse n dl zt) ->
  length x = n -> length o1 = n -> length o2 = n ->
  c2c_forward_x E f x o1 = Ok c -> c2c_backward_x E f c o2 = Ok y -> (forall k, (k < n)%nat -> cfin fin y.[k]) ->
  (forall j, (j < n)%nat -> cfin fin x.[j]) /\
  forall j, (j < n)%nat ->
  let e := (5 * dl + 8 * u) * rsum n (fun k => Rabs (val (fst x.[k])) + Rabs (val (snd x.[k]))) + 4 * INR n * eta + 4 * zt in
  Rabs (val (fst y.[j]) - val (fst x.[j])) <= e /\ Rabs (val (snd y.[j]) - val (snd x.[j])) <= e.
Proof.
  intros A N u eta rnd zmax inr fin val FA E n f dl zt x o1 c o2 y Hf Hz Hs Hd Hzt HE Lx L1 L2 Ec Ey Fy. destruct (c2c_new_inv n f Hf) as [Hn ->].
  exact (c2c_bwd_fwd_err FA E n dl zt x o1 c o2 y Hn Hz Hs Hd Hzt HE Lx L1 L2 Ec Ey Fy).
Qed.
Theorem C55_c2c_forward_of_backward :
  forall A (N : Num A) u eta rnd zmax inr fin val, float_arith N u eta rnd zmax inr fin val ->
  forall (E : ext A) n f dl zt (c o1 y o2 d : list (cplx A)),
  c2c_new n = Ok f -> (Z.of_nat n <= zmax)%Z -> INR n * eta <= u -> 0 <= dl <= / 16 -> 0 <= zt -> (forall inverse, fft_accurate E fin val inverse n dl zt) ->
  length c = n -> length o1 = n -> length o2 = n ->
  c2c_backward_x E f c o1 = Ok y -> c2c_forward_x E f y o2 = Ok d -> (forall k, (k < n)%nat -> cfin fin d.[k]) ->
  (forall k, (k < n)%nat -> cfin fin c.[k]) /\
  forall k, (k < n)%nat ->
  let e := (5 * dl + 9 * u) * rsum n (fun k => Rabs (val (fst c.[k])) + Rabs (val (snd c.[k]))) + 9 * INR n ^ 2 * eta + 4 * INR n * zt in
  Rabs (val (fst d.[k]) - val (fst c.[k])) <= e /\ Rabs (val (snd d.[k]) - val (snd c.[k])) <= e.
Proof.
  intros A N u eta rnd zmax inr fin val FA E n f dl zt c o1 y o2 d Hf Hz Hs Hd Hzt HE Lc L1 L2 Ey Ed Fd. destruct (c2c_new_inv n f Hf) as [Hn ->].
  replace (INR n ^ 2) with (INR n * INR n) by ring.
  exact (c2c_fwd_bwd_err FA E n dl zt c o1 y o2 d Hn Hz Hs Hd Hzt HE Lc L1 L2 Ey Ed Fd).
Qed.

(** ** Real-to-complex Fourier *)
Theorem C55_r2c_backward :
  forall A (N : Num A) (Z0 : EqZ A) u eta rnd zmax inr fin val, float_arith N u eta rnd zmax inr fin val ->
  forall (E : ext A) n f dl zt (c : list (cplx A)) (o y : list A),
  r2c_new n = Ok f -> (Z.of_nat n <= zmax)%Z -> INR n * eta <= u -> 0 <= dl <= 1 -> 0 <= zt -> c2r_accurate E fin val n dl zt ->
  length c = (n / 2 + 1)%nat -> length o = n -> r2c_backward_x E f c o = Ok y -> (forall k, (k < n)%nat -> fin y.[k]) ->
  length y = n /\
  (forall k, (k < n / 2 + 1)%nat -> fin (fst c.[k]) /\ (((k =? 0)%nat || (2 * k =? n)%nat) = false -> fin (snd c.[k]))) /\
  forall j, (j < n)%nat ->
  let th k := 2 * PI * INR (k * j) / INR n in
  Rabs (val y.[j] - / INR n * rsum (n / 2 + 1) (fun k => (if (k =? 0)%nat || (2 * k =? n)%nat then 1 else 2) * (val (fst c.[k]) * cos (th k) - val (snd c.[k]) * sin (th k)))) <=
  (11 / 10 * dl + 8 * u) * (rsum (n / 2 + 1) (fun k => Rabs (val (fst c.[k])) + Rabs (val (snd c.[k]))) / INR n) + 6 * INR n * eta + zt.
Proof.
  intros A N Z0 u eta rnd zmax inr fin val FA E n f dl zt c o y Hf Hz Hs Hd Hzt HE Lc Lo Ey Fy. destruct (r2c_new_inv n f Hf) as [Hn ->].
  destruct (r2c_backward_err FA E n dl zt c o y Hn Hz Hs Hd Hzt HE Lc Lo Ey Fy) as (Ly & Fc & HB). split; auto. split; auto.
  intros j Hj th. specialize (HB j Hj).
  assert (EQ : RB n (cv (val := val) c) j = / INR n * rsum (n / 2 + 1) (fun k => (if (k =? 0)%nat || (2 * k =? n)%nat then 1 else 2) * (val (fst c.[k]) * cos (th k) - val (snd c.[k]) * sin (th k)))).
  { unfold RB, Rdiv. rewrite Rmult_comm. f_equal. apply rsum_ext. intros k Hk. rewrite E_at. unfold cv, FourierProofs.wgt, selfc, th. unc. ring. }
  rewrite EQ in HB. exact HB.
Qed.
Theorem C55_r2c_backward_of_forward :
  forall A (N : Num A) (Z0 : EqZ A) u eta rnd zmax inr fin val, float_arith N u eta rnd zmax inr fin val ->
  forall (E : ext A) n f dl zt (x o2 y : list A) (o1 c : list (cplx A)),
  r2c_new n = Ok f -> (Z.of_nat n <= zmax)%Z -> INR n * eta <= u -> 0 <= dl <= / 16 -> 0 <= zt -> r2c_accurate E fin val n dl zt -> c2r_accurate E fin val n dl zt ->
  length x = n -> length o1 = (n / 2 + 1)%nat -> length o2 = n ->
  r2c_forward_x E f x o1 = Ok c -> r2c_backward_x E f c o2 = Ok y -> (forall k, (k < n / 2 + 1)%nat -> cfin fin c.[k]) -> (forall j, (j < n)%nat -> fin y.[j]) ->
  (forall j, (j < n)%nat -> fin x.[j]) /\
  forall j, (j < n)%nat -> Rabs (val y.[j] - val x.[j]) <= (7 * dl + 17 * u) * rsum n (fun k => Rabs (val x.[k])) + 6 * INR n * eta + 6 * zt.
Proof.
  intros A N Z0 u eta rnd zmax inr fin val FA E n f dl zt x o2 y o1 c Hf Hz Hs Hd Hzt HF HB Lx L1 L2 Ec Ey Fc Fy. destruct (r2c_new_inv n f Hf) as [Hn ->].
  exact (r2c_bwd_fwd_err FA E n dl zt x o2 y o1 c Hn Hz Hs Hd Hzt HF HB Lx L1 L2 Ec Ey Fc Fy).
Qed.
(** the imaginary parts of the mean and of the Nyquist mode are lost, as in exact
    arithmetic (C20) *)
Theorem C55_r2c_forward_of_backward :
  forall A (N : Num A) (Z0 : EqZ A) u eta rnd zmax inr fin val, float_arith N u eta rnd zmax inr fin val ->
  forall (E : ext A) n f dl zt (c o2 d : list (cplx A)) (o1 y : list A),
  r2c_new n = Ok f -> (Z.of_nat n <= zmax)%Z -> INR n * eta <= u -> 0 <= dl <= / 16 -> 0 <= zt -> r2c_accurate E fin val n dl zt -> c2r_accurate E fin val n dl zt ->
  length c = (n / 2 + 1)%nat -> length o1 = n -> length o2 = (n / 2 + 1)%nat ->
  r2c_backward_x E f c o1 = Ok y -> r2c_forward_x E f y o2 = Ok d -> (forall k, (k < n / 2 + 1)%nat -> cfin fin d.[k]) ->
  forall k, (k < n / 2 + 1)%nat ->
  let e := (4 * dl + 9 * u) * rsum (n / 2 + 1) (fun k => Rabs (val (fst c.[k])) + Rabs (val (snd c.[k]))) + 7 * INR n ^ 2 * eta + 3 * INR n * zt in
  Rabs (val (fst d.[k]) - val (fst c.[k])) <= e /\
  Rabs (val (snd d.[k]) - (if (k =? 0)%nat || (2 * k =? n)%nat then 0 else val (snd c.[k]))) <= e.
Proof.
  intros A N Z0 u eta rnd zmax inr fin val FA E n f dl zt c o2 d o1 y Hf Hz Hs Hd Hzt HF HB Lc L1 L2 Ey Ed Fd. destruct (r2c_new_inv n f Hf) as [Hn ->].
  replace (INR n ^ 2) with (INR n * INR n) by ring.
  exact (r2c_fwd_bwd_err FA E n dl zt c o2 d o1 y Hn Hz Hs Hd Hzt HF HB Lc L1 L2 Ey Ed Fd).
Qed.
