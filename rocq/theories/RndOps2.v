(** The transforms of the Dirichlet and Neumann bases as accurate slice
    operations, for the round trip coefficients -> values -> coefficients (C57). *)
From Coq Require Import List Arith ZArith Reals Bool Lra Lia.
From Verif Require Import Base Num Linalg LinalgProofs Stencils StencilProofs Cheb ChebDct ChebGrad Compo Fourier FourierFacts FourierProofs CompoProofs ExtLib AxisFacts AxisProps
  Rounding RndTdma RndDirichlet RndNeumann RndCheb RndFft RndR2c RndCompo LibAcc PropRound RndFinite RndFinite2 RndAxis RndAxis2 RndOps BaseLin.
Import ListNotations.
Local Open Scope R_scope.
Notation dirc n := (mk_compo n (n - 2) (mk_cheb n n) (Dirichlet (dir_st2 (n - 2)))).
Notation neuc n := (mk_compo n (n - 2) (mk_cheb n n) (Neumann (neu_st2 (n - 2)))).

(** ** The exact solutions of the normal equations *)
Notation XR := (X (A := R) (N := num_R) (T := R) (V := vec_self) (VC := vecC_self num_R) (val := fun r : R => r) tt).
Definition sol (c : compo R) n (g : nat -> R) (k : nat) : R :=
  match compo_from_ortho (V := vec_self) c (map g (seq 0 n)) (repeat 0 (n - 2)) with Ok y => y.[k] | _ => 0 end.
Lemma XR_map n (g : nat -> R) k : (k < n)%nat -> XR (map g (seq 0 n)) k = g k.
Proof. intros Hk. unfold X. cbn [cp vecC_self]. rewrite at_map_seq by auto. auto. Qed.

Definition dir_rows n (g c : nat -> R) : Prop := forall j, (j < n - 2)%nat -> 2 * c j - zprev c j - znext (n - 2) c j = g j - g (j + 2)%nat.
Lemma dir_prog_rows n (a o y : list R) : (5 <= n)%nat -> length a = n -> length o = (n - 2)%nat -> compo_from_ortho (V := vec_self) (dirc n) a o = Ok y ->
  length y = (n - 2)%nat /\ dir_rows n (XR a) (XR y).
Proof.
  intros Hn La Lo Ey. destruct (dir_from_rows (exact_float_arith 1024 ltac:(lia)) n a o y Hn La Lo Ey (fun _ _ _ => I)) as [Ly HY]. split; auto.
  destruct (HY tt) as [_ HY']. destruct (bounded_max (n - 2) (XR y)) as (Ym & _ & HYm & _). specialize (HY' Ym HYm).
  intros j Hj. destruct (HY' j Hj) as (b' & B3 & B4). rewrite Rmult_0_l in B3. replace (48 * 0 * Ym + 24 * 0 * (1 + 2 * Ym)) with 0 in B4 by ring.
  assert (B5 : b' = XR a j - XR a (j + 2)%nat) by (apply Rminus_diag_uniq, Rabs_le0; exact B3). rewrite <- B5. apply Rminus_diag_uniq, Rabs_le0. exact B4.
Qed.
Lemma dir_sol_rows n g : (5 <= n)%nat -> dir_rows n g (sol (dirc n) n g).
Proof.
  intros Hn. assert (La : length (map g (seq 0 n)) = n) by (rewrite map_length, seq_length; auto). assert (Lo : length (repeat 0 (n - 2)) = (n - 2)%nat) by apply repeat_length.
  destruct (bounded_max n g) as (G & G0 & HG & _).
  destruct (dir_from_ortho_fin (exact_float_arith 1024 ltac:(lia)) (VC := vecC_self num_R) n (map g (seq 0 n)) (repeat 0 (n - 2)) G Hn La Lo ltac:(lra) G0) as (y & Ey & Ly & _).
  { intros [] k Hk. split. exact I. rewrite XR_map by auto. auto. } { exact I. }
  unfold sol. rewrite Ey. destruct (dir_prog_rows n _ _ y Hn La Lo Ey) as [_ HR]. intros j Hj. specialize (HR j Hj). rewrite !XR_map in HR by lia. exact HR.
Qed.
Lemma dir_unique n g h c d G : (5 <= n)%nat -> dir_rows n g c -> dir_rows n h d -> (forall j, (j < n)%nat -> Rabs (g j - h j) <= G) ->
  forall k, (k < n - 2)%nat -> Rabs (c k - d k) <= (INR n + 1) * (INR n + 1) * G.
Proof.
  intros Hn Hc Hd HG k Hk. assert (G0 : 0 <= G) by (eapply Rle_trans; [apply Rabs_pos|apply (HG 0%nat); lia]).
  pose proof (max_principle_abs (n - 2) (fun j => c j - d j) (2 * G) ltac:(lra)) as MP. cbv beta in MP.
  eapply Rle_trans; [apply MP; auto|].
  - intros j Hj. assert (E : 2 * (c j - d j) - zprev (fun j => c j - d j) j - znext (n - 2) (fun j => c j - d j) j = (g j - h j) - (g (j + 2)%nat - h (j + 2)%nat)).
    { specialize (Hc j Hj). specialize (Hd j Hj). unfold zprev, znext in *. destruct (j <? 2), (j + 2 <? n - 2); lra. }
    rewrite E. pose proof (HG j ltac:(lia)). pose proof (HG (j + 2)%nat ltac:(lia)). unfold Rminus at 1. eapply Rle_trans; [apply Rabs_triang|]. rewrite Rabs_Ropp. lra.
  - assert (INR (n - 2) + 3 = INR n + 1) as ->. { rewrite minus_INR by lia. cbn [INR]. ring. } assert (0 <= (INR n + 1) * (INR n + 1)). { pose proof (pos_INR n). apply Rmult_le_pos; lra. }
    assert (0 <= (INR n + 1) * (INR n + 1) * G) by (apply Rmult_le_pos; auto). lra.
Qed.

Definition neu_rows n (g c : nat -> R) : Prop := forall j, (j < n - 2)%nat -> neu_row (n - 2) c j = g j - nq j * g (j + 2)%nat.
Lemma neu_prog_rows n (a o y : list R) : (5 <= n)%nat -> length a = n -> length o = (n - 2)%nat -> compo_from_ortho (V := vec_self) (neuc n) a o = Ok y ->
  length y = (n - 2)%nat /\ neu_rows n (XR a) (XR y).
Proof.
  intros Hn La Lo Ey. destruct (neu_from_rows (exact_float_arith (Z.max 1024 (Z.of_nat n * Z.of_nat n)) ltac:(lia)) n a o y Hn ltac:(lia) ltac:(lra) La Lo Ey (fun _ _ _ => I)) as [Ly HY]. split; auto.
  destruct (HY tt) as [_ HY']. clear HY. destruct (bounded_max (n - 2) (XR y)) as (Ym & _ & HYm & _). destruct (bounded_max n (XR a)) as (Am' & _ & HAm & _). specialize (HY' Am' Ym HAm HYm).
  intros j Hj. specialize (HY' j Hj). rewrite !Rmult_0_l, Rplus_0_r in HY'. apply Rabs_le0, Rminus_diag_uniq in HY'. exact HY'.
Qed.
Lemma neu_sol_rows n g : (5 <= n)%nat -> neu_rows n g (sol (neuc n) n g).
Proof.
  intros Hn. assert (La : length (map g (seq 0 n)) = n) by (rewrite map_length, seq_length; auto). assert (Lo : length (repeat 0 (n - 2)) = (n - 2)%nat) by apply repeat_length.
  destruct (bounded_max n g) as (G & G0 & HG & _).
  destruct (neu_from_ortho_fin (exact_float_arith (Z.max 1024 (Z.of_nat n * Z.of_nat n)) ltac:(lia)) (VC := vecC_self num_R) n (map g (seq 0 n)) (repeat 0 (n - 2)) G Hn ltac:(lia) ltac:(lra) La Lo G0) as (y & Ey & Ly & _).
  { intros [] k Hk. split. exact I. rewrite XR_map by auto. auto. } { exact I. }
  unfold sol. rewrite Ey. destruct (neu_prog_rows n _ _ y Hn La Lo Ey) as [_ HR]. intros j Hj. specialize (HR j Hj). rewrite !XR_map in HR by lia. exact HR.
Qed.
Lemma neu_unique n g h c d G : (5 <= n)%nat -> neu_rows n g c -> neu_rows n h d -> (forall j, (j < n)%nat -> Rabs (g j - h j) <= G) ->
  forall k, (k < n - 2)%nat -> Rabs (c k - d k) <= (INR n + 1) * (INR n + 1) * G.
Proof.
  intros Hn Hc Hd HG k Hk. assert (G0 : 0 <= G) by (eapply Rle_trans; [apply Rabs_pos|apply (HG 0%nat); lia]).
  pose proof (neu_dominance n (fun j => c j - d j) (2 * G) ltac:(lia)) as MP. cbv beta in MP.
  eapply Rle_trans; [apply MP; auto|].
  - intros j Hj. assert (E : neu_row (n - 2) (fun j => c j - d j) j = (g j - h j) - nq j * (g (j + 2)%nat - h (j + 2)%nat)).
    { specialize (Hc j Hj). specialize (Hd j Hj). unfold neu_row in *. lra. }
    rewrite E. pose proof (HG j ltac:(lia)). pose proof (HG (j + 2)%nat ltac:(lia)) as G2. unfold Rminus at 1. eapply Rle_trans; [apply Rabs_triang|]. rewrite Rabs_Ropp, Rabs_mult.
    pose proof (nq_range j) as Q. rewrite (Rabs_pos_eq (nq j)) by lra. assert (nq j * Rabs (g (j + 2)%nat - h (j + 2)%nat) <= 1 * G). { apply Rmult_le_compat; try lra. apply Rabs_pos. } lra.
  - pose proof (pos_INR n). assert (0 <= INR n * G) by (apply Rmult_le_pos; auto). assert (0 <= INR n * INR n * G) by (rewrite Rmult_assoc; apply Rmult_le_pos; auto). lra.
Qed.

Section Fl.
Context {A : Type} {N : Num A} {u eta : R} {rnd : R -> R} {zmax : Z} {inr : R -> Prop} {fin : A -> Prop} {val : A -> R}
  (FA : float_arith N u eta rnd zmax inr fin val) (E : ext A).
Let RN := fa_rnd _ _ _ _ _ _ _ _ FA.
Notation rel := (rel (fin := fin) (val := val)).
Definition Fo n (coef : (nat -> R) -> nat -> R) (g : nat -> CR) j : CR := (Bex n (coef (fun i => fst (g i))) j, 0).
Definition Bo n (S : (nat -> R) -> nat -> R) (g : nat -> CR) k : CR := (S (Fex n (fun i => fst (g i))) k, 0).

Section Gen.
Context (n : nat) (coef Sl : (nat -> R) -> nat -> R) (RW : (nat -> R) -> (nat -> R) -> Prop) (kap : R) (Hn : (5 <= n)%nat)
  (Ce : forall c d k, (k < n)%nat -> (forall i, (i < n - 2)%nat -> c i = d i) -> coef c k = coef d k)
  (Cs : forall c d k, coef (fun i => c i - d i) k = coef c k - coef d k)
  (Ca : forall c, rsum n (fun k => Rabs (coef c k)) <= 2 * rsum (n - 2) (fun k => Rabs (c k)))
  (Sr : forall g, RW g (Sl g))
  (R0 : RW (fun _ => 0) (fun _ => 0)) (Rs : forall g h c d, RW g c -> RW h d -> RW (fun j => g j - h j) (fun j => c j - d j)) (Rc : forall c, RW (coef c) c)
  (Ru : forall g h c d G, RW g c -> RW h d -> (forall j, (j < n)%nat -> Rabs (g j - h j) <= G) -> forall k, (k < n - 2)%nat -> Rabs (c k - d k) <= kap * G)
  (K1 : 1 <= kap).
Lemma uniq g h c d k : RW g c -> RW h d -> (forall j, (j < n)%nat -> g j = h j) -> (k < n - 2)%nat -> c k = d k.
Proof.
  intros Hc Hd He Hk. apply Rminus_diag_uniq, Rabs_le0. rewrite <- (Rmult_0_r kap). apply (Ru g h); auto. intros j Hj. rewrite He by auto. rewrite Rminus_diag_eq by auto. rewrite Rabs_R0. lra.
Qed.
Lemma Fo_bounded : bounded (Fo n coef) (n - 2) n 2.
Proof.
  split.
  - intros g h k Hk. unfold Fo. apply ceq; cbn [csub fst snd nsub num_R]; [|ring]. rewrite <- Bex_sub. apply Bex_ext. intros j Hj. apply Cs.
  - intros g k Hk. unfold Fo. rewrite cn_real. eapply Rle_trans; [apply Bex_abs; lia|]. eapply Rle_trans; [apply Ca|]. apply Rmult_le_compat_l. lra. apply rsum_le. intros. apply cn_fst.
Qed.
Lemma Bo_bounded : bounded (Bo n Sl) n (n - 2) (kap * (2 / INR (n - 1))).
Proof.
  split.
  - intros g h k Hk. unfold Bo. apply ceq; cbn [csub fst snd nsub num_R]; [|ring].
    apply (uniq _ _ _ (fun k => Sl (Fex n (fun i => fst (g i))) k - Sl (Fex n (fun i => fst (h i))) k) k (Sr _) (Rs _ _ _ _ (Sr _) (Sr _))); auto. intros j Hj. apply Fex_sub.
  - intros g k Hk. unfold Bo. rewrite cn_real, <- (Rminus_0_r (Sl _ k)). eapply Rle_trans; [apply (Ru _ _ _ _ (2 / INR (n - 1) * rsum n (fun j => cn (g j))) (Sr _) R0); auto|lra].
    intros j Hj. rewrite Rminus_0_r. eapply Rle_trans; [apply Fex_abs; lia|]. apply Rmult_le_compat_l. pose proof (cor_pos n ltac:(lia)); lra. apply rsum_le. intros. apply cn_fst.
Qed.
Lemma compo_good f g dl zt Rg : 0 <= dl <= 1 -> 0 <= zt ->
  near f (n - 2) n rel rel (Fo n coef) Rg (5 * dl + 9 * u) (9 * INR n * eta + zt) ->
  near_sol g n (n - 2) rel rel (Bo n Sl) Rg (kap * ((dl + 4 * u) * (2 / INR (n - 1)))) (kap * (12 * u)) (kap * (3 * INR n * eta + zt)) ->
  good_spec f g (n - 2) n n rel rel same kap (dl + u) (eta + zt) Rg.
Proof.
  intros Hd Hzt NF NB. pose proof (rn_u _ _ _ RN) as [U U1]. pose proof (rn_eta _ _ _ RN) as H0. destruct (n_over n ltac:(lia)) as [N1 _]. destruct (n1_le n ltac:(lia)) as [C C2].
  assert (N5 : 5 <= INR n). { pose proof Hn as H5. apply le_INR in H5. replace (INR 5) with 5 in H5 by (cbn; ring). auto. }
  assert (NM : INR (n - 1) = INR n - 1) by (rewrite minus_INR by lia; cbn [INR]; ring). assert (N2 : 2 / INR (n - 1) * INR n <= 5 / 2).
  { apply Rmult_le_reg_r with (INR (n - 1)). lra. replace (2 / INR (n - 1) * INR n * INR (n - 1)) with (2 * INR n) by (field; lra). lra. }
  assert (NE : 0 <= INR n * eta) by (apply Rmult_le_pos; lra). assert (NZ : zt <= INR n * zt). { rewrite <- (Rmult_1_l zt) at 1. apply Rmult_le_compat_r; auto. }
  set (r := 2 / INR (n - 1)) in *.
  exists (Fo n coef), (Bo n Sl), 2, (kap * r), (5 * dl + 9 * u), (kap * ((dl + 4 * u) * r)), (kap * (12 * u)).
  split. { intros d1 d2 x o Lx Lo Fx Sx. destruct (NF d1 d2 x o Lx Lo Fx Sx) as (y & Ey & Ly & Hy). exists y. split; auto. split; auto. intros k Hk. destruct (Hy k Hk) as [F1 G1]. split; auto. eapply Rle_trans; [exact G1|]. lra. }
  split. { intros d1 d2 x o Lx Lo Fx Sx. destruct (NB d1 d2 x o Lx Lo Fx Sx) as (y & Ey & Ly & Hy). exists y. split; auto. split; auto. intros Bm HBm k Hk. destruct (Hy Bm HBm k Hk) as [F1 G1]. split; auto. eapply Rle_trans; [exact G1|].
    apply Rplus_le_compat_l. replace (9 * kap * INR n * (eta + zt)) with (kap * (9 * (INR n * eta) + 9 * (INR n * zt))) by ring. apply Rmult_le_compat_l; lra. }
  split. apply Fo_bounded. split. apply Bo_bounded. assert (kr : kap * r <= kap * 2) by (apply Rmult_le_compat_l; lra).
  split. lra. split. split. apply Rmult_le_pos; lra. lra.
  split. { replace (kap * r * INR n * 2) with (kap * (2 * (r * INR n))) by ring. replace (5 * kap) with (kap * 5) by ring. apply Rmult_le_compat_l; lra. }
  split. lra. split. { split. apply Rmult_le_pos; [lra|]. apply Rmult_le_pos; lra. replace (4 * (dl + u) * (kap * r)) with (kap * (4 * (dl + u) * r)) by ring. apply Rmult_le_compat_l. lra. apply Rmult_le_compat_r; lra. }
  split. { split. apply Rmult_le_pos; lra. replace (12 * kap * (dl + u)) with (kap * (12 * (dl + u))) by ring. apply Rmult_le_compat_l; lra. }
  split. lia. split. lia. split.
  - intros d x j Hj Lx. unfold same, Fo, Bo, rel. cbn [ev fst]. f_equal. apply (uniq _ _ _ (fun j => val x.[j]) j (Sr _) (Rc _)); auto. intros i Hi. rewrite Fex_Bex by (auto; lia). auto.
  - intros j z. unfold same. lra.
Qed.
End Gen.

(** ** The two backward transforms *)
Lemma dir_bwd_near n dl zt Rg : (5 <= n)%nat -> INR n * eta <= u -> 0 <= dl <= 1 -> 0 <= zt ->
  dct1_accurate E fin val n dl zt -> dct1_in_range E fin val inr n -> inr (27 * INR n * INR n * (Rg + 3 * (INR n * eta) + zt)) ->
  near (compo_backward_x E (dirc n)) (n - 2) n rel rel (Fo n (dir_coef n)) Rg (5 * dl + 9 * u) (9 * INR n * eta + zt).
Proof.
  intros Hn Hs Hd Hzt HE HR HI d1 d2 c o Lc Lo Fc Sx. rewrite (real_sum (d := d1) _ c Lc) in *. set (S := size (n - 2) c) in *. assert (S0 : 0 <= S) by apply size_pos. pose proof (rn_eta _ _ _ RN) as H0. pose proof (rn_u _ _ _ RN) as [U U1].
  assert (N5 : 5 <= INR n). { pose proof Hn as H5. apply le_INR in H5. replace (INR 5) with 5 in H5 by (cbn; ring). auto. }
  assert (NE : 0 <= INR n * eta) by (apply Rmult_le_pos; lra). set (Am := Rg + 3 * (INR n * eta) + zt) in *. assert (A0 : 0 <= Am) by (unfold Am; lra).
  assert (NA : 25 * Am <= INR n * INR n * Am). { apply Rmult_le_compat_r; auto. replace 25 with (5 * 5) by ring. apply Rmult_le_compat; lra. }
  assert (L0 : length (repeat (n0 (A := A)) n) = n) by apply repeat_length.
  destruct (dir_to_ortho_fin FA (VC := vecC_self N) n c (repeat n0 n) S ltac:(lia) Lc L0) as (a & Ea & La & Ha).
  { intros p k Hk. split. specialize (Fc k Hk). rewrite (at_dflt d1 dflt_num) in Fc by lia. exact Fc. apply (rsum_pick (n - 2) (fun j => Rabs (val (@at_ A dflt_num c j)))); auto. intros; apply Rabs_pos. }
  { eapply (inr_down FA); [|exact HI]. unfold Am in *. lra. }
  assert (Fa : forall k, (k < n)%nat -> fin (@at_ A dflt_num a k)) by (intros; apply (Ha tt); auto).
  destruct (dir_scratch FA n c _ a ltac:(lia) Lc L0 Ea Fa) as (_ & _ & _ & _ & HS). change (rsum (n - 2) (fun k => Rabs (val (@at_ A dflt_num c k)))) with S in HS. change (rsum n (fun k => Rabs (val (@at_ A dflt_num a k)))) with (size (val := val) n a) in HS.
  assert (US : u * S <= / 64 * S) by (apply Rmult_le_compat_r; auto). pose proof (size_pos (val := val) n a) as SA0.
  destruct (cheb_backward_fin FA E n a o ltac:(lia) (len_of_acc E n dl zt HE) HR La Lo Fa) as (y & Ey & Ly & Fy). { eapply (inr_down FA); [|exact HI]. unfold Am in *. lra. }
  assert (EY : compo_backward_x E (dirc n) c o = Ok y). { unfold compo_backward_x, compo_len_orth. cbn [p_ortho cheb_len_orth]. change (cheb_len_orth (mk_cheb n n)) with n. rewrite Ea. cbn [bind]. auto. }
  exists y. split; auto. split; auto. intros k Hk. destruct (dir_backward_err FA E n dl zt c o y ltac:(lia) Hd Hzt HE Lc Lo EY Fy) as (_ & _ & HF). specialize (HF k Hk).
  rewrite (at_dflt d2 dflt_num) by lia. split. apply Fy; auto. cbn [RndOps.rel ev]. unfold Fo, csub. cbn [fst snd nsub num_R]. replace (0 - 0) with 0 by ring. rewrite cn_real.
  change (rsum (n - 2) (fun k => Rabs (val (@at_ A dflt_num c k)))) with S in HF.
  rewrite (Bex_ext n _ (dir_coef n (fun j => val (@at_ A dflt_num c j))) k). 2: { intros i Hi. unfold dir_coef. destruct (Nat.ltb_spec i (n - 2)), (Nat.ltb_spec i 2); rewrite ?(at_dflt d1 dflt_num) by lia; auto. }
  assert (0 <= u * S) by (apply Rmult_le_pos; auto). eapply Rle_trans; [exact HF|]. lra.
Qed.
Lemma neu_bwd_near n dl zt Rg : (5 <= n)%nat -> (Z.of_nat n * Z.of_nat n <= zmax)%Z -> INR n * eta <= u -> 0 <= dl <= 1 -> 0 <= zt ->
  dct1_accurate E fin val n dl zt -> dct1_in_range E fin val inr n -> inr (27 * INR n * INR n * (Rg + 3 * (INR n * eta) + zt)) ->
  near (compo_backward_x E (neuc n)) (n - 2) n rel rel (Fo n (neu_coef n)) Rg (5 * dl + 9 * u) (9 * INR n * eta + zt).
Proof.
  intros Hn Hz Hs Hd Hzt HE HR HI d1 d2 c o Lc Lo Fc Sx. rewrite (real_sum (d := d1) _ c Lc) in *. set (S := size (n - 2) c) in *. assert (S0 : 0 <= S) by apply size_pos. pose proof (rn_eta _ _ _ RN) as H0. pose proof (rn_u _ _ _ RN) as [U U1].
  assert (N5 : 5 <= INR n). { pose proof Hn as H5. apply le_INR in H5. replace (INR 5) with 5 in H5 by (cbn; ring). auto. }
  assert (NE : 0 <= INR n * eta) by (apply Rmult_le_pos; lra). set (Am := Rg + 3 * (INR n * eta) + zt) in *. assert (A0 : 0 <= Am) by (unfold Am; lra).
  assert (NA : 25 * Am <= INR n * INR n * Am). { apply Rmult_le_compat_r; auto. replace 25 with (5 * 5) by ring. apply Rmult_le_compat; lra. }
  assert (L0 : length (repeat (n0 (A := A)) n) = n) by apply repeat_length.
  destruct (neu_to_ortho_fin FA (VC := vecC_self N) n c (repeat n0 n) S ltac:(lia) Hz Lc L0) as (a & Ea & La & Ha).
  { intros p k Hk. split. specialize (Fc k Hk). rewrite (at_dflt d1 dflt_num) in Fc by lia. exact Fc. apply (rsum_pick (n - 2) (fun j => Rabs (val (@at_ A dflt_num c j)))); auto. intros; apply Rabs_pos. }
  { eapply (inr_down FA); [|exact HI]. unfold Am in *. lra. }
  assert (Fa : forall k, (k < n)%nat -> fin (@at_ A dflt_num a k)) by (intros; apply (Ha tt); auto).
  destruct (neu_scratch FA n c _ a ltac:(lia) Hz Hs Lc L0 Ea Fa) as (_ & _ & _ & _ & HS). change (rsum (n - 2) (fun k => Rabs (val (@at_ A dflt_num c k)))) with S in HS. change (rsum n (fun k => Rabs (val (@at_ A dflt_num a k)))) with (size (val := val) n a) in HS.
  assert (US : u * S <= / 64 * S) by (apply Rmult_le_compat_r; auto). pose proof (size_pos (val := val) n a) as SA0.
  destruct (cheb_backward_fin FA E n a o ltac:(lia) (len_of_acc E n dl zt HE) HR La Lo Fa) as (y & Ey & Ly & Fy). { eapply (inr_down FA); [|exact HI]. unfold Am in *. lra. }
  assert (EY : compo_backward_x E (neuc n) c o = Ok y). { unfold compo_backward_x, compo_len_orth. cbn [p_ortho cheb_len_orth]. change (cheb_len_orth (mk_cheb n n)) with n. rewrite Ea. cbn [bind]. auto. }
  exists y. split; auto. split; auto. intros k Hk. destruct (neu_backward_err FA E n dl zt c o y ltac:(lia) Hz Hs Hd Hzt HE Lc Lo EY Fy) as (_ & _ & HF). specialize (HF k Hk).
  rewrite (at_dflt d2 dflt_num) by lia. split. apply Fy; auto. cbn [RndOps.rel ev]. unfold Fo, csub. cbn [fst snd nsub num_R]. replace (0 - 0) with 0 by ring. rewrite cn_real.
  change (rsum (n - 2) (fun k => Rabs (val (@at_ A dflt_num c k)))) with S in HF.
  rewrite (Bex_ext n _ (neu_coef n (fun j => val (@at_ A dflt_num c j))) k). 2: { intros i Hi. unfold neu_coef. destruct (Nat.ltb_spec i (n - 2)), (Nat.ltb_spec i 2); rewrite ?(at_dflt d1 dflt_num) by lia; auto. }
  eapply Rle_trans; [exact HF|]. lra.
Qed.

(** ** The two forward transforms *)
Lemma exact_run n (x : list A) (c : compo R) : (5 <= n)%nat -> length x = n -> p_ortho c = mk_cheb n n -> compo_len_orth c = n ->
  (forall a, length a = n -> exists y, compo_from_ortho (V := vec_self) c a (repeat 0 (n - 2)) = Ok y) ->
  exists y, compo_forward (N := num_R) c (map val x) (repeat 0 (n - 2)) = Ok y /\ forall k, y.[k] = sol c n (Fex n (fun j => val (@at_ A dflt_num x j))) k.
Proof.
  intros Hn Lx HO HL HF. unfold compo_forward. rewrite HO, HL.
  assert (Lm : length (map val x) = n) by (rewrite map_length; auto). assert (Lr : length (repeat 0 n) = n) by apply repeat_length.
  pose proof (cheb_forward_ok n (map val x) (repeat 0 n) ltac:(lia) Lm Lr) as W. change (@n0 R num_R) with 0.
  destruct (cheb_forward (mk_cheb n n) (map val x) (repeat 0 n)) as [a'| |]; cbn [bind wp] in *; try tauto.
  destruct W as [La Ea]. destruct (HF a' La) as (y & Ey). exists y. split; auto. intros k. unfold sol.
  replace (map (Fex n (fun j => val (@at_ A dflt_num x j))) (seq 0 n)) with a'. rewrite Ey; auto.
  assert (AE : forall i, (i < n)%nat -> @at_ R dflt_num a' i = Fex n (fun j => val (@at_ A dflt_num x j)) i).
  { intros i Hi. etransitivity; [exact (Ea i Hi)|]. unfold Fex. f_equal. apply rsum_ext. intros j Hj. f_equal. rewrite (at_map val) by lia. auto. }
  apply (list_ext (d := dflt_num)). rewrite map_length, seq_length; auto. intros i Hi. rewrite La in Hi. rewrite at_map_seq by auto. apply AE; auto.
Qed.
Lemma dir_fwd_near n dl zt Rg : (5 <= n)%nat -> (Z.of_nat n <= zmax)%Z -> INR n * eta <= u -> 3 * (INR n + 1) ^ 2 * (u + eta) <= 1 -> INR n * u <= 1 -> 0 <= dl <= / 16 -> 0 <= zt ->
  dct1_accurate E fin val n dl zt -> dct1_in_range E fin val inr n -> inr (27 * INR n * INR n * (Rg + 3 * (INR n * eta) + zt)) ->
  near_sol (compo_forward_x E (dirc n)) n (n - 2) rel rel (Bo n (sol (dirc n) n)) Rg ((INR n + 1) * (INR n + 1) * ((dl + 4 * u) * (2 / INR (n - 1)))) ((INR n + 1) * (INR n + 1) * (12 * u)) ((INR n + 1) * (INR n + 1) * (3 * INR n * eta + zt)).
Proof.
  intros Hn Hz Hs Hsm Hu Hd Hzt HE HR HI d1 d2 x o Lx Lo Fx Sx. rewrite (real_sum (d := d1) _ x Lx) in *. set (S := size n x) in *. assert (S0 : 0 <= S) by apply size_pos. pose proof (rn_eta _ _ _ RN) as H0. pose proof (rn_u _ _ _ RN) as [U U1].
  assert (N5 : 5 <= INR n). { pose proof Hn as H5. apply le_INR in H5. replace (INR 5) with 5 in H5 by (cbn; ring). auto. }
  assert (NE : 0 <= INR n * eta) by (apply Rmult_le_pos; lra). set (Am := Rg + 3 * (INR n * eta) + zt) in *. assert (A0 : 0 <= Am) by (unfold Am; lra).
  assert (NA : 25 * Am <= INR n * INR n * Am). { apply Rmult_le_compat_r; auto. replace 25 with (5 * 5) by ring. apply Rmult_le_compat; lra. }
  assert (L0 : length (repeat (n0 (A := A)) n) = n) by apply repeat_length.
  assert (Fx' : forall k, (k < n)%nat -> fin (@at_ A dflt_num x k)) by (intros k Hk; specialize (Fx k Hk); rewrite (at_dflt d1 dflt_num) in Fx by lia; exact Fx).
  destruct (cheb_forward_fin FA E n dl zt x (repeat n0 n) ltac:(lia) Hz ltac:(lra) Hzt HE HR Lx L0 Fx') as (a & Ea & La & Fa). { eapply (inr_down FA); [|exact HI]. fold S. unfold Am in *. lra. }
  assert (C : 2 / INR (n - 1) <= / 2). { assert (NM : INR (n - 1) = INR n - 1) by (rewrite minus_INR by lia; cbn [INR]; ring). apply Rmult_le_reg_r with (INR (n - 1)). lra. replace (2 / INR (n - 1) * INR (n - 1)) with 2 by (field; lra). lra. }
  pose proof (cor_pos n ltac:(lia)) as CP.
  assert (MA : forall k, (k < n)%nat -> Rabs (val (@at_ A dflt_num a k)) <= Am).
  { intros k Hk. eapply Rle_trans; [apply (cheb_forward_mag FA E n dl zt x (repeat n0 n) a ltac:(lia) Hz Hs Hd Hzt HE Lx L0 Ea Fa k Hk)|]. fold S. unfold Am. assert (2 / INR (n - 1) * S <= / 2 * S) by (apply Rmult_le_compat_r; auto). lra. }
  destruct (dir_from_ortho_fin FA (VC := vecC_self N) n a o Am Hn La Lo Hu A0) as (c & Ec & Lc & Hc). { intros p k Hk. split. apply Fa; auto. apply MA; auto. } { exact HI. }
  assert (EC : compo_forward_x E (dirc n) x o = Ok c). { unfold compo_forward_x, compo_len_orth. cbn [p_ortho cheb_len_orth]. change (cheb_len_orth (mk_cheb n n)) with n. rewrite Ea. cbn [bind]. auto. }
  assert (Fc : forall k, (k < n - 2)%nat -> fin (@at_ A dflt_num c k)) by (intros; apply (Hc tt); auto).
  exists c. split; auto. split; auto. intros Bm HBm k Hk.
  destruct (exact_run n x (dirc n) Hn Lx eq_refl eq_refl) as (y & Ey & Hy).
  { intros a' La'. destruct (bounded_max n (XR a')) as (G & G0 & HG & _).
    destruct (dir_from_ortho_fin (exact_float_arith 1024 ltac:(lia)) (VC := vecC_self num_R) n a' (repeat 0 (n - 2)) G Hn La' (repeat_length _ _) ltac:(lra) G0) as (y & Ey & _). { intros [] i Hi. split. exact I. auto. } { exact I. } exists y; auto. }
  assert (NX : compo_new (N := num_R) KDirichlet n = Ok (dirc n)). { destruct (compo_new_ok KDirichlet n ltac:(cbn [smin]; lia)) as (cx & Hcx). destruct (dir_inv (N := num_R) n cx Hcx) as [_ ->]. auto. }
  destruct (dir_forward_err FA E n dl zt x o c (repeat 0 (n - 2)) y (dirc n) Hn Hz Hs Hsm ltac:(lra) Hzt HE Lx Lo (repeat_length _ _) EC Fc NX Ey) as [_ HF].
  assert (FX : forall k, Fex n (fun i => val (@at_ A d1 x i)) k = Fex n (fun j => val (@at_ A dflt_num x j)) k) by (intros; apply Fex_ext; [lia|]; intros; rewrite (at_dflt d1 dflt_num) by lia; auto).
  assert (SE : forall k, (k < n - 2)%nat -> sol (dirc n) n (Fex n (fun i => val (@at_ A d1 x i))) k = y.[k]).
  { intros i Hi. rewrite Hy. unfold sol. replace (map (Fex n (fun i => val (@at_ A d1 x i))) (seq 0 n)) with (map (Fex n (fun j => val (@at_ A dflt_num x j))) (seq 0 n)). auto. apply map_ext. intros; symmetry; auto. }
  rewrite (at_dflt d2 dflt_num) by lia. split. apply Fc; auto. cbn [RndOps.rel ev]. unfold Bo, csub. cbn [fst snd nsub num_R]. replace (0 - 0) with 0 by ring. rewrite cn_real.
  rewrite SE by auto. specialize (HF Bm). eapply Rle_trans; [apply HF; auto|].
  - intros i Hi. specialize (HBm i Hi). unfold Bo in HBm. rewrite cn_real in HBm. cbn [RndOps.rel ev fst] in HBm. rewrite SE in HBm by auto. auto.
  - change (rsum n (fun k => Rabs (val (@at_ A dflt_num x k)))) with S. set (P := 2 / INR (n - 1) * S). assert (P0 : 0 <= P) by (apply Rmult_le_pos; lra).
    assert (B0 : 0 <= Bm) by (eapply Rle_trans; [apply cn_pos|apply (HBm 0%nat); lia]). assert (0 <= dl * P) by (apply Rmult_le_pos; lra). assert (0 <= u * P) by (apply Rmult_le_pos; lra). assert (0 <= u * Bm) by (apply Rmult_le_pos; lra).
    replace ((INR n + 1) ^ 2) with ((INR n + 1) * (INR n + 1)) by ring. 
    replace ((INR n + 1) * (INR n + 1) * ((dl + 4 * u) * (2 / INR (n - 1))) * S + (INR n + 1) * (INR n + 1) * (12 * u) * Bm + (INR n + 1) * (INR n + 1) * (3 * INR n * eta + zt)) with ((INR n + 1) * (INR n + 1) * ((dl + 4 * u) * P + 12 * u * Bm + 3 * INR n * eta + zt)) by (unfold P; ring).
    apply Rmult_le_compat_l. apply Rmult_le_pos; lra. lra.
Qed.
Lemma neu_fwd_near n dl zt Rg : (5 <= n)%nat -> (Z.of_nat n * Z.of_nat n <= zmax)%Z -> INR n * eta <= u -> 10 * (INR n ^ 2 * (u + eta)) <= 1 -> 0 <= dl <= / 16 -> 0 <= zt ->
  dct1_accurate E fin val n dl zt -> dct1_in_range E fin val inr n -> inr (27 * INR n * INR n * (Rg + 3 * (INR n * eta) + zt)) ->
  near_sol (compo_forward_x E (neuc n)) n (n - 2) rel rel (Bo n (sol (neuc n) n)) Rg ((INR n + 1) * (INR n + 1) * ((dl + 4 * u) * (2 / INR (n - 1)))) ((INR n + 1) * (INR n + 1) * (12 * u)) ((INR n + 1) * (INR n + 1) * (3 * INR n * eta + zt)).
Proof.
  intros Hn Hz Hs Hsm Hd Hzt HE HR HI d1 d2 x o Lx Lo Fx Sx. rewrite (real_sum (d := d1) _ x Lx) in *. set (S := size n x) in *. assert (S0 : 0 <= S) by apply size_pos. pose proof (rn_eta _ _ _ RN) as H0. pose proof (rn_u _ _ _ RN) as [U U1].
  assert (Hz1 : (Z.of_nat n <= zmax)%Z) by nia. assert (Hsm' : 10 * (INR n * INR n * (u + eta)) <= 1) by (replace (INR n * INR n) with (INR n ^ 2) by ring; auto).
  assert (N5 : 5 <= INR n). { pose proof Hn as H5. apply le_INR in H5. replace (INR 5) with 5 in H5 by (cbn; ring). auto. }
  assert (NE : 0 <= INR n * eta) by (apply Rmult_le_pos; lra). set (Am := Rg + 3 * (INR n * eta) + zt) in *. assert (A0 : 0 <= Am) by (unfold Am; lra).
  assert (NA : 25 * Am <= INR n * INR n * Am). { apply Rmult_le_compat_r; auto. replace 25 with (5 * 5) by ring. apply Rmult_le_compat; lra. }
  assert (L0 : length (repeat (n0 (A := A)) n) = n) by apply repeat_length.
  assert (Fx' : forall k, (k < n)%nat -> fin (@at_ A dflt_num x k)) by (intros k Hk; specialize (Fx k Hk); rewrite (at_dflt d1 dflt_num) in Fx by lia; exact Fx).
  destruct (cheb_forward_fin FA E n dl zt x (repeat n0 n) ltac:(lia) Hz1 ltac:(lra) Hzt HE HR Lx L0 Fx') as (a & Ea & La & Fa). { eapply (inr_down FA); [|exact HI]. fold S. unfold Am in *. lra. }
  assert (C : 2 / INR (n - 1) <= / 2). { assert (NM : INR (n - 1) = INR n - 1) by (rewrite minus_INR by lia; cbn [INR]; ring). apply Rmult_le_reg_r with (INR (n - 1)). lra. replace (2 / INR (n - 1) * INR (n - 1)) with 2 by (field; lra). lra. }
  pose proof (cor_pos n ltac:(lia)) as CP.
  assert (MA : forall k, (k < n)%nat -> Rabs (val (@at_ A dflt_num a k)) <= Am).
  { intros k Hk. eapply Rle_trans; [apply (cheb_forward_mag FA E n dl zt x (repeat n0 n) a ltac:(lia) Hz1 Hs Hd Hzt HE Lx L0 Ea Fa k Hk)|]. fold S. unfold Am. assert (2 / INR (n - 1) * S <= / 2 * S) by (apply Rmult_le_compat_r; auto). lra. }
  destruct (neu_from_ortho_fin FA (VC := vecC_self N) n a o Am Hn Hz Hsm' La Lo A0) as (c & Ec & Lc & Hc). { intros p k Hk. split. apply Fa; auto. apply MA; auto. } { exact HI. }
  assert (EC : compo_forward_x E (neuc n) x o = Ok c). { unfold compo_forward_x, compo_len_orth. cbn [p_ortho cheb_len_orth]. change (cheb_len_orth (mk_cheb n n)) with n. rewrite Ea. cbn [bind]. auto. }
  assert (Fc : forall k, (k < n - 2)%nat -> fin (@at_ A dflt_num c k)) by (intros; apply (Hc tt); auto).
  exists c. split; auto. split; auto. intros Bm HBm k Hk.
  destruct (exact_run n x (neuc n) Hn Lx eq_refl eq_refl) as (y & Ey & Hy).
  { intros a' La'. destruct (bounded_max n (XR a')) as (G & G0 & HG & _).
    destruct (neu_from_ortho_fin (exact_float_arith (Z.max 1024 (Z.of_nat n * Z.of_nat n)) ltac:(lia)) (VC := vecC_self num_R) n a' (repeat 0 (n - 2)) G Hn ltac:(lia) ltac:(lra) La' (repeat_length _ _) G0) as (y & Ey & _). { intros [] i Hi. split. exact I. auto. } { exact I. } exists y; auto. }
  assert (NX : compo_new (N := num_R) KNeumann n = Ok (neuc n)). { destruct (compo_new_ok KNeumann n ltac:(cbn [smin]; lia)) as (cx & Hcx). destruct (neu_inv (N := num_R) n cx Hcx) as [_ ->]. auto. }
  destruct (neu_forward_err FA E n dl zt x o c (repeat 0 (n - 2)) y (neuc n) Hn Hz Hs Hsm ltac:(lra) Hzt HE Lx Lo (repeat_length _ _) EC Fc NX Ey) as [_ HF].
  assert (FX : forall k, Fex n (fun i => val (@at_ A d1 x i)) k = Fex n (fun j => val (@at_ A dflt_num x j)) k) by (intros; apply Fex_ext; [lia|]; intros; rewrite (at_dflt d1 dflt_num) by lia; auto).
  assert (SE : forall k, (k < n - 2)%nat -> sol (neuc n) n (Fex n (fun i => val (@at_ A d1 x i))) k = y.[k]).
  { intros i Hi. rewrite Hy. unfold sol. replace (map (Fex n (fun i => val (@at_ A d1 x i))) (seq 0 n)) with (map (Fex n (fun j => val (@at_ A dflt_num x j))) (seq 0 n)). auto. apply map_ext. intros; symmetry; auto. }
  rewrite (at_dflt d2 dflt_num) by lia. split. apply Fc; auto. cbn [RndOps.rel ev]. unfold Bo, csub. cbn [fst snd nsub num_R]. replace (0 - 0) with 0 by ring. rewrite cn_real.
  rewrite SE by auto. specialize (HF Bm). eapply Rle_trans; [apply HF; auto|].
  - intros i Hi. specialize (HBm i Hi). unfold Bo in HBm. rewrite cn_real in HBm. cbn [RndOps.rel ev fst] in HBm. rewrite SE in HBm by auto. auto.
  - change (rsum n (fun k => Rabs (val (@at_ A dflt_num x k)))) with S. set (P := 2 / INR (n - 1) * S). assert (P0 : 0 <= P) by (apply Rmult_le_pos; lra).
    assert (B0 : 0 <= Bm) by (eapply Rle_trans; [apply cn_pos|apply (HBm 0%nat); lia]). assert (0 <= dl * P) by (apply Rmult_le_pos; lra). assert (0 <= u * P) by (apply Rmult_le_pos; lra). assert (0 <= u * Bm) by (apply Rmult_le_pos; lra).
    replace ((INR n + 1) * (INR n + 1) * ((dl + 4 * u) * (2 / INR (n - 1))) * S + (INR n + 1) * (INR n + 1) * (12 * u) * Bm + (INR n + 1) * (INR n + 1) * (3 * INR n * eta + zt)) with ((INR n + 1) * (INR n + 1) * ((dl + 4 * u) * P + 12 * u * Bm + 3 * INR n * eta + zt)) by (unfold P; ring).
    apply Rmult_le_compat_r. lra. replace (INR n ^ 2) with (INR n * INR n) by ring. apply Rmult_le_compat; lra.
Qed.

Lemma dir_good n dl zt Rg : (5 <= n)%nat -> (Z.of_nat n <= zmax)%Z -> INR n * eta <= u -> 3 * (INR n + 1) ^ 2 * (u + eta) <= 1 -> INR n * u <= 1 -> 0 <= dl <= / 16 -> 0 <= zt ->
  dct1_accurate E fin val n dl zt -> dct1_in_range E fin val inr n -> inr (27 * INR n * INR n * (Rg + 3 * (INR n * eta) + zt)) ->
  good_spec (compo_backward_x E (dirc n)) (compo_forward_x E (dirc n)) (n - 2) n n rel rel same ((INR n + 1) * (INR n + 1)) (dl + u) (eta + zt) Rg.
Proof.
  intros Hn Hz Hs Hsm Hu Hd Hzt HE HR HI.
  apply (compo_good n (dir_coef n) (sol (dirc n) n) (dir_rows n)); auto; try lra.
  - intros c d k Hk He. unfold dir_coef. destruct (Nat.ltb_spec k (n - 2)), (Nat.ltb_spec k 2); rewrite ?He by lia; auto.
  - intros c d k. unfold dir_coef. destruct (k <? n - 2), (k <? 2); ring.
  - intros c. apply dir_coef_abs. lia.
  - intros g. apply dir_sol_rows; auto.
  - intros j Hj. unfold zprev, znext. destruct (j <? 2), (j + 2 <? n - 2); ring.
  - intros g h c d Hc Hd' j Hj. specialize (Hc j Hj). specialize (Hd' j Hj). unfold zprev, znext in *. destruct (j <? 2), (j + 2 <? n - 2); lra.
  - intros c j Hj. symmetry. apply dir_coef_rows; auto.
  - intros g h c d G Hc Hd' HG k Hk. apply (dir_unique n g h); auto.
  - pose proof (pos_INR n). replace 1 with (1 * 1) at 1 by ring. apply Rmult_le_compat; lra.
  - apply dir_bwd_near; auto; lra.
  - apply dir_fwd_near; auto; lra.
Qed.
Lemma neu_good n dl zt Rg : (5 <= n)%nat -> (Z.of_nat n * Z.of_nat n <= zmax)%Z -> INR n * eta <= u -> 10 * (INR n ^ 2 * (u + eta)) <= 1 -> 0 <= dl <= / 16 -> 0 <= zt ->
  dct1_accurate E fin val n dl zt -> dct1_in_range E fin val inr n -> inr (27 * INR n * INR n * (Rg + 3 * (INR n * eta) + zt)) ->
  good_spec (compo_backward_x E (neuc n)) (compo_forward_x E (neuc n)) (n - 2) n n rel rel same ((INR n + 1) * (INR n + 1)) (dl + u) (eta + zt) Rg.
Proof.
  intros Hn Hz Hs Hsm Hd Hzt HE HR HI.
  apply (compo_good n (neu_coef n) (sol (neuc n) n) (neu_rows n)); auto; try lra.
  - intros c d k Hk He. unfold neu_coef. destruct (Nat.ltb_spec k (n - 2)), (Nat.ltb_spec k 2); rewrite ?He by lia; auto.
  - intros c d k. unfold neu_coef. destruct (k <? n - 2), (k <? 2); ring.
  - intros c. apply neu_coef_abs. lia.
  - intros g. apply neu_sol_rows; auto.
  - intros j Hj. unfold neu_row. ring.
  - intros g h c d Hc Hd' j Hj. specialize (Hc j Hj). specialize (Hd' j Hj). unfold neu_row in *. lra.
  - intros c j Hj. symmetry. apply neu_coef_rows; auto.
  - intros g h c d G Hc Hd' HG k Hk. apply (neu_unique n g h); auto.
  - pose proof (pos_INR n). replace 1 with (1 * 1) at 1 by ring. apply Rmult_le_compat; lra.
  - apply neu_bwd_near; auto; lra.
  - apply neu_fwd_near; auto; lra.
Qed.
End Fl.
