(** The backward transform of the DirichletNeumann base as an accurate slice
    operation (C58). *)
From Coq Require Import List Arith ZArith Reals Bool Lra Lia.
From Verif Require Import Base Num Linalg LinalgProofs Stencils StencilProofs Cheb ChebDct ChebGrad Compo Fourier FourierFacts FourierProofs CompoProofs ExtLib AxisFacts AxisProps
  Rounding RndTdma RndDirichlet RndNeumann RndCheb RndFft RndR2c RndCompo LibAcc PropRound RndFinite RndFinite2 RndAxis RndAxis2 RndOps BaseLin RndOps2 RndDN.
Import ListNotations.
Local Open Scope R_scope.
Notation dnc n h := (mk_compo n (n - 2) (mk_cheb n n) (DirichletNeumann h)).

Section Fl.
Context {A : Type} {N : Num A} {u eta : R} {rnd : R -> R} {zmax : Z} {inr : R -> Prop} {fin : A -> Prop} {val : A -> R}
  (FA : float_arith N u eta rnd zmax inr fin val) (E : ext A).
Let RN := fa_rnd _ _ _ _ _ _ _ _ FA.
Notation rel := (rel (fin := fin) (val := val)).
Notation V_ l := (fun j => val l.[j]).
Lemma dn_scratch n h (c o a : list A) : (4 <= n)%nat -> (2 * (Z.of_nat n * Z.of_nat n) <= zmax)%Z -> 100 * eta <= u -> dn_st n h -> length c = (n - 2)%nat -> length o = n ->
  compo_to_ortho (V := vec_self) (dnc n h) c o = Ok a -> (forall k, (k < n)%nat -> fin a.[k]) ->
  let S := rsum (n - 2) (fun k => Rabs (val c.[k])) in
  length a = n /\ (forall k, (k < n - 2)%nat -> fin c.[k]) /\
  rsum n (fun k => Rabs (val a.[k] - dn_coef n (V_ c) k)) <= 6 * u * S + 3 * INR n * eta /\ rsum n (fun k => Rabs (val a.[k])) <= 2 * S + 6 * u * S + 3 * INR n * eta.
Proof.
  intros Hn Hz Hs HD Lc Lo Ea Fa S.
  assert (La : length a = n). { pose proof (dn_to_ortho n h c o Hn HD Lc Lo) as W. rewrite Ea in W. apply W. } split; auto.
  destruct (dn_sum_err FA (VC := vecC_self N) n h c o a tt Hn Hz Hs HD Lc Lo Ea Fa) as [Fc HE]. split; auto. unfold X in HE. assert (HE' : rsum n (fun k => Rabs (val a.[k] - dn_coef n (V_ c) k)) <= 6 * u * S + 3 * INR n * eta) by exact HE. split; auto.
  eapply Rle_trans. { apply (rsum_le n _ (fun k => Rabs (dn_coef n (V_ c) k) + Rabs (val a.[k] - dn_coef n (V_ c) k))). intros k Hk.
    replace (val a.[k]) with (dn_coef n (V_ c) k + (val a.[k] - dn_coef n (V_ c) k)) at 1 by ring. apply Rabs_triang. }
  rewrite rsum_add. pose proof (dn_coef_abs n (V_ c) Hn) as DA. cbv beta in DA. eapply Rle_trans; [apply Rplus_le_compat; [exact DA|exact HE']|]. fold S. lra.
Qed.
Lemma dn_backward_err n h dl zt (c o y : list A) : (4 <= n)%nat -> (2 * (Z.of_nat n * Z.of_nat n) <= zmax)%Z -> 100 * eta <= u -> 0 <= dl <= 1 -> 0 <= zt -> dct1_accurate E fin val n dl zt ->
  dn_st n h -> length c = (n - 2)%nat -> length o = n -> compo_backward_x E (dnc n h) c o = Ok y -> (forall k, (k < n)%nat -> fin y.[k]) ->
  length y = n /\ (forall k, (k < n - 2)%nat -> fin c.[k]) /\
  forall j, (j < n)%nat -> Rabs (val y.[j] - Bex n (dn_coef n (V_ c)) j) <= (5 * dl + 9 * u) * rsum (n - 2) (fun k => Rabs (val c.[k])) + 12 * INR n * eta + zt.
Proof.
  intros Hn Hz Hs Hd Hzt HE HD0 Lc Lo Ey Fy. unfold compo_backward_x in Ey. cbn [p_ortho compo_len_orth] in Ey. unfold compo_len_orth in Ey. cbn [p_ortho cheb_len_orth] in Ey.
  set (s0 := repeat n0 _) in Ey. assert (L0 : length s0 = n) by (unfold s0; rewrite repeat_length; reflexivity).
  destruct (compo_to_ortho (dnc n h) c s0) as [a| |] eqn:Ea; cbn [bind] in Ey; try discriminate.
  assert (La : length a = n). { pose proof (dn_to_ortho n h c s0 Hn HD0 Lc L0) as W. rewrite Ea in W. apply W. }
  destruct (cheb_backward_err FA E n dl zt a o y ltac:(lia) Hd Hzt HE La Lo Ey Fy) as (_ & Fa & _).
  destruct (dn_scratch n h c s0 a Hn Hz Hs HD0 Lc L0 Ea Fa) as (_ & Fc & HD & HS).
  destruct (back_near FA E n dl zt a o y _ _ _ ltac:(lia) Hd Hzt HE La Lo Ey Fy HD HS) as [Ly HB]. split; auto. split; auto.
  intros j Hj. eapply Rle_trans; [exact (HB j Hj)|]. set (S := rsum (n - 2) _). assert (S0 : 0 <= S) by (apply rsum_pos; intros; apply Rabs_pos).
  pose proof (rn_u _ _ _ RN) as [U U1]. pose proof (rn_eta _ _ _ RN) as H0. pose proof (pos_INR n) as N0. set (ne := INR n * eta) in *. assert (ne0 : 0 <= ne) by (apply Rmult_le_pos; auto).
  assert (dS : 0 <= dl * S) by (apply Rmult_le_pos; lra). assert (uS : 0 <= u * S) by (apply Rmult_le_pos; lra).
  assert (u * (dl * S) <= / 64 * (dl * S)) by (apply Rmult_le_compat_r; auto). assert (u * (u * S) <= / 64 * (u * S)) by (apply Rmult_le_compat_r; auto).
  assert (dl * ne <= 1 * ne) by (apply Rmult_le_compat_r; lra). assert (u * ne <= / 64 * ne) by (apply Rmult_le_compat_r; lra).
  replace (2 * INR n * eta) with (2 * ne) by (unfold ne; ring). replace (3 * INR n * eta) with (3 * ne) by (unfold ne; ring). replace (12 * INR n * eta) with (12 * ne) by (unfold ne; ring). lra.
Qed.
Lemma dn_bwd_near n h dl zt Rg : (5 <= n)%nat -> (2 * (Z.of_nat n * Z.of_nat n) <= zmax)%Z -> 100 * eta <= u -> dn_st n h -> 0 <= dl <= 1 -> 0 <= zt ->
  dct1_accurate E fin val n dl zt -> dct1_in_range E fin val inr n -> inr (27 * INR n * INR n * (Rg + 3 * (INR n * eta) + zt)) ->
  near (compo_backward_x E (dnc n h)) (n - 2) n rel rel (Fo n (dn_coef n)) Rg (5 * dl + 9 * u) (12 * INR n * eta + zt).
Proof.
  intros Hn Hz Hs HD0 Hd Hzt HE HR HI d1 d2 c o Lc Lo Fc Sx. rewrite (real_sum (d := d1) _ c Lc) in *. set (S := size (n - 2) c) in *. assert (S0 : 0 <= S) by apply size_pos. pose proof (rn_eta _ _ _ RN) as H0. pose proof (rn_u _ _ _ RN) as [U U1].
  assert (N5 : 5 <= INR n). { pose proof Hn as H5. apply le_INR in H5. replace (INR 5) with 5 in H5 by (cbn; ring). auto. }
  assert (NE : 0 <= INR n * eta) by (apply Rmult_le_pos; lra). set (Am := Rg + 3 * (INR n * eta) + zt) in *. assert (A0 : 0 <= Am) by (unfold Am; lra).
  assert (NA : 25 * Am <= INR n * INR n * Am). { apply Rmult_le_compat_r; auto. replace 25 with (5 * 5) by ring. apply Rmult_le_compat; lra. }
  assert (L0 : length (repeat (n0 (A := A)) n) = n) by apply repeat_length.
  destruct (dn_to_ortho_fin FA (VC := vecC_self N) n h c (repeat n0 n) S ltac:(lia) Hz HD0 Lc L0) as (a & Ea & La & Ha).
  { intros p k Hk. split. specialize (Fc k Hk). rewrite (at_dflt d1 dflt_num) in Fc by lia. exact Fc. apply (rsum_pick (n - 2) (fun j => Rabs (val (@at_ A dflt_num c j)))); auto. intros; apply Rabs_pos. }
  { eapply (inr_down FA); [|exact HI]. unfold Am in *. lra. }
  assert (Fa : forall k, (k < n)%nat -> fin (@at_ A dflt_num a k)) by (intros; apply (Ha tt); auto).
  destruct (dn_scratch n h c _ a ltac:(lia) Hz Hs HD0 Lc L0 Ea Fa) as (_ & _ & _ & HS). change (rsum (n - 2) (fun k => Rabs (val (@at_ A dflt_num c k)))) with S in HS. change (rsum n (fun k => Rabs (val (@at_ A dflt_num a k)))) with (size (val := val) n a) in HS.
  assert (US : u * S <= / 64 * S) by (apply Rmult_le_compat_r; auto). pose proof (size_pos (val := val) n a) as SA0.
  destruct (cheb_backward_fin FA E n a o ltac:(lia) (len_of_acc E n dl zt HE) HR La Lo Fa) as (y & Ey & Ly & Fy). { eapply (inr_down FA); [|exact HI]. unfold Am in *. lra. }
  assert (EY : compo_backward_x E (dnc n h) c o = Ok y). { unfold compo_backward_x, compo_len_orth. cbn [p_ortho cheb_len_orth]. change (cheb_len_orth (mk_cheb n n)) with n. rewrite Ea. cbn [bind]. auto. }
  exists y. split; auto. split; auto. intros k Hk. destruct (dn_backward_err n h dl zt c o y ltac:(lia) Hz Hs Hd Hzt HE HD0 Lc Lo EY Fy) as (_ & _ & HF). specialize (HF k Hk).
  rewrite (at_dflt d2 dflt_num) by lia. split. apply Fy; auto. cbn [RndOps.rel ev]. unfold Fo, csub. cbn [fst snd nsub num_R]. replace (0 - 0) with 0 by ring. rewrite cn_real.
  change (rsum (n - 2) (fun k => Rabs (val (@at_ A dflt_num c k)))) with S in HF.
  rewrite (Bex_ext n _ (dn_coef n (fun j => val (@at_ A dflt_num c j))) k).
  2: { intros i Hi. unfold dn_coef. destruct (Nat.ltb_spec i (n - 2)), (Nat.ltb_spec i 2), (Nat.ltb_spec 0 i), (Nat.ltb_spec i (n - 1)); cbn [andb]; rewrite ?(at_dflt d1 dflt_num) by lia; auto. }
  eapply Rle_trans; [exact HF|]. lra.
Qed.
End Fl.
