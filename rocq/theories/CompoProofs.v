(** Composite Chebyshev bases: what constructed bases compute. *)
From Coq Require Import List Arith Lia Bool ZArith Reals Lra.
From Verif Require Import Base Num Linalg LinalgSpec LinalgModes Stencils StencilProofs StencilProofs2 Cheb Compo
  ChebPoly ChebGrad ChebMat ChebDct ChebFacts.
Import ListNotations.
Local Open Scope R_scope.

(** Offset of the first sub-diagonal, coefficients, minimal sizes. *)
Definition sstep (k : skind) : nat := match k with KBiHarmonicA | KBiHarmonicB => 2 | _ => 1 end.
Definition slowa (k : skind) : nat -> R :=
  match k with KDirichlet | KNeumann => fun _ => 0 | KDirichletNeumann => dn_low1 | KBiHarmonicA => ba_low2 | KBiHarmonicB => bb_low2 end.
Definition slowb (k : skind) : nat -> R :=
  match k with KDirichlet => dirichlet_low2 | KNeumann => neumann_low2 | KDirichletNeumann => dn_low2
             | KBiHarmonicA => ba_low4 | KBiHarmonicB => bb_low4 end.
Definition smat (k : skind) : nat -> nat -> R := scol (sstep k) (fun _ => 1) (slowa k) (slowb k).
Definition smin (k : skind) : nat := match k with KBiHarmonicA | KBiHarmonicB => 8 | _ => 4 end.
Definition ssolve (k : skind) : nat :=
  match k with KDirichlet | KNeumann => 5 | KDirichletNeumann => 6 | _ => 10 end.
Definition sdim (k : skind) (n : nat) : nat := n - 2 * sstep k.
Definition biharmonic (k : skind) : bool := match k with KBiHarmonicA | KBiHarmonicB => true | _ => false end.

Lemma scol_ext s m d a b d' a' b' :
  (forall j, (j < m)%nat -> d j = d' j) -> (forall j, (j < m)%nat -> a j = a' j) -> (forall j, (j < m)%nat -> b j = b' j) ->
  forall i j, (j < m)%nat -> scol s d a b i j = scol s d' a' b' i j.
Proof. intros Hd Ha Hb i j Hj. unfold scol. rewrite Hd, Ha, Hb by auto. auto. Qed.

Lemma at_rep (x : R) m j : (j < m)%nat -> (repeat x m).[j] = x.
Proof. intros. rewrite at_repeat by auto. auto. Qed.
Lemma at_ms (f : nat -> R) m j : (j < m)%nat -> (map f (seq 0 m)).[j] = f j.
Proof. intros. rewrite at_map_seq by auto. auto. Qed.

(** What [stencil_new] builds. *)
Definition st_spec (k : skind) (m : nat) (s : stencil R) : Prop :=
  match k, s with
  | KDirichlet, Dirichlet h | KNeumann, Neumann h =>
      d2_diag h = repeat 1 m /\ length (d2_low2 h) = m /\ (forall j, (j < m)%nat -> (d2_low2 h).[j] = slowb k j) /\
      st2_new (d2_diag h) (d2_low2 h) = Ok h
  | KDirichletNeumann, DirichletNeumann h =>
      d3_diag h = repeat 1 m /\ length (d3_lowa h) = m /\ length (d3_lowb h) = m /\
      (forall j, (j < m)%nat -> (d3_lowa h).[j] = slowa k j) /\ (forall j, (j < m)%nat -> (d3_lowb h).[j] = slowb k j) /\
      st3_new (d3_diag h) (d3_lowa h) (d3_lowb h) = Ok h
  | KBiHarmonicA, BiHarmonicA h | KBiHarmonicB, BiHarmonicB h =>
      d3_diag h = repeat 1 m /\ length (d3_lowa h) = m /\ length (d3_lowb h) = m /\
      (forall j, (j < m)%nat -> (d3_lowa h).[j] = slowa k j) /\ (forall j, (j < m)%nat -> (d3_lowb h).[j] = slowb k j) /\
      st4_new (d3_diag h) (d3_lowa h) (d3_lowb h) = Ok h
  | _, _ => False
  end.

Lemma usub_ok a b : (b <= a)%nat -> usub a b = Ok (a - b)%nat.
Proof. intros. unfold usub. destruct (Nat.leb_spec b a); auto; lia. Qed.
Lemma usub_panic a b : (a < b)%nat -> usub a b = Panic.
Proof. intros. unfold usub. destruct (Nat.leb_spec b a); auto; lia. Qed.

Lemma stencil_new_ok k n : (smin k <= n)%nat ->
  exists s, stencil_new (A := R) k n = Ok s /\ st_spec k (sdim k n) s.
Proof.
  intros Hn. unfold stencil_new. destruct k; cbn [smin] in Hn; unfold get_m, sdim; cbn [sstep];
    rewrite usub_ok by lia; cbn [bind].
  - rewrite (st2_new_eq _ _ (n-2)); try (rewrite repeat_length; auto); [|lia]. cbn [bind].
    eexists; split; [reflexivity|]. cbn [st_spec d2_diag d2_low2]. rewrite repeat_length. split; auto. split; auto. split.
    + intros. rewrite at_rep by auto. reflexivity.
    + apply st2_new_eq; rewrite ?repeat_length; lia.
  - rewrite (fill_eq _ _ neumann_low2) by auto. rewrite repeat_length. cbn [bind].
    rewrite (st2_new_eq _ _ (n-2)); rewrite ?repeat_length, ?map_length, ?seq_length; auto; [|lia]. cbn [bind].
    eexists; split; [reflexivity|]. cbn [st_spec d2_diag d2_low2]. rewrite map_length, seq_length. split; auto. split; auto. split.
    + intros. rewrite at_ms by auto. reflexivity.
    + apply st2_new_eq; rewrite ?repeat_length, ?map_length, ?seq_length; lia.
  - rewrite (fill_eq _ _ dn_low1) by auto. rewrite (fill_eq _ _ dn_low2) by auto. rewrite repeat_length. cbn [bind].
    rewrite (st3_new_eq _ _ _ (n-2)); rewrite ?repeat_length, ?map_length, ?seq_length; auto; [|lia]. cbn [bind].
    eexists; split; [reflexivity|]. cbn [st_spec d3_diag d3_lowa d3_lowb]. rewrite !map_length, !seq_length.
    do 3 (split; auto). split; [|split].
    + intros. rewrite at_ms by auto. reflexivity.
    + intros. rewrite at_ms by auto. reflexivity.
    + apply st3_new_eq; rewrite ?repeat_length, ?map_length, ?seq_length; lia.
  - rewrite (fill_eq _ _ ba_low2) by auto. rewrite (fill_eq _ _ ba_low4) by auto. rewrite repeat_length. cbn [bind].
    rewrite (st4_new_eq _ _ _ (n-4)); rewrite ?repeat_length, ?map_length, ?seq_length; auto; [|lia]. cbn [bind].
    eexists; split; [reflexivity|]. cbn [st_spec d3_diag d3_lowa d3_lowb]. rewrite !map_length, !seq_length.
    do 3 (split; auto). split; [|split].
    + intros. rewrite at_ms by auto. reflexivity.
    + intros. rewrite at_ms by auto. reflexivity.
    + apply st4_new_eq; rewrite ?repeat_length, ?map_length, ?seq_length; lia.
  - rewrite (fill_eq _ _ bb_low2) by auto. rewrite (fill_eq _ _ bb_low4) by auto. rewrite repeat_length. cbn [bind].
    rewrite (st4_new_eq _ _ _ (n-4)); rewrite ?repeat_length, ?map_length, ?seq_length; auto; [|lia]. cbn [bind].
    eexists; split; [reflexivity|]. cbn [st_spec d3_diag d3_lowa d3_lowb]. rewrite !map_length, !seq_length.
    do 3 (split; auto). split; [|split].
    + intros. rewrite at_ms by auto. reflexivity.
    + intros. rewrite at_ms by auto. reflexivity.
    + apply st4_new_eq; rewrite ?repeat_length, ?map_length, ?seq_length; lia.
Qed.

(** Below the minimal size every constructor panics. *)
Lemma stencil_new_small k n : (n < smin k)%nat -> stencil_new (A := R) k n = Panic.
Proof.
  intros Hn. destruct k; cbn [smin] in Hn;
    do 8 (destruct n as [|n]; [reflexivity || lia|]); lia.
Qed.

Lemma compo_new_inv k n c : compo_new k n = Ok c ->
  (smin k <= n)%nat /\ p_n c = n /\ p_m c = sdim k n /\ p_ortho c = mk_cheb n n /\ st_spec k (sdim k n) (p_st c).
Proof.
  unfold compo_new. intros H. destruct (Nat.lt_ge_cases n (smin k)) as [Hs|Hs].
  { rewrite stencil_new_small in H by auto. discriminate. }
  destruct (stencil_new_ok k n Hs) as (s & Es & Ss). rewrite Es in H. cbn [bind] in H.
  assert (G : get_m k n = Ok (sdim k n)).
  { unfold get_m, sdim. destruct k; cbn [smin sstep] in *; apply usub_ok; lia. }
  rewrite G in H. cbn [bind] in H. destruct (cheb_new n) eqn:E; try discriminate. apply cheb_new_inv in E as [_ ->].
  apply Ok_inj in H. subst c. auto.
Qed.

Lemma compo_new_ok k n : (smin k <= n)%nat -> exists c, compo_new (A := R) k n = Ok c.
Proof.
  intros Hs. unfold compo_new. destruct (stencil_new_ok k n Hs) as (s & Es & Ss). rewrite Es. cbn [bind].
  assert (G : get_m k n = Ok (sdim k n)).
  { unfold get_m, sdim. destruct k; cbn [smin sstep] in *; apply usub_ok; lia. }
  rewrite G. cbn [bind]. unfold cheb_new. destruct (Nat.leb_spec 2 n). cbn. eauto.
  destruct k; cbn in Hs; lia.
Qed.

Lemma compo_new_small k n : (n < smin k)%nat -> compo_new (A := R) k n = Panic.
Proof. intros. unfold compo_new. rewrite stencil_new_small by auto. reflexivity. Qed.

Lemma sdim_eq k n : (smin k <= n)%nat -> n = (sdim k n + 2 * sstep k)%nat.
Proof. unfold sdim. destruct k; cbn; lia. Qed.

(** *** The stencil matrix *)
Lemma rep1_nz m j : (j < m)%nat -> (repeat 1 m).[j] <> 0.
Proof. intros. rewrite at_rep by auto. lra. Qed.

Lemma to_array_ok k n c : compo_new k n = Ok c ->
  wp (compo_stencil c) (fun S => is_mat S n (sdim k n) (smat k)).
Proof.
  intros H. apply compo_new_inv in H as (Hs & _ & _ & _ & Sp). unfold compo_stencil, stencil_to_array, smat.
  pose proof (sdim_eq k n Hs) as En. set (m := sdim k n) in *. rewrite En.
  destruct k, (p_st c) as [h|h|h|h|h]; cbn [st_spec] in Sp; try contradiction; cbn [sstep] in *.
  1,2: destruct Sp as (E1 & L2 & E2 & _); eapply wp_mono; [apply (st2_to_array_ok h m); [rewrite E1, repeat_length; auto|auto]|];
       intros M HM; eapply is_mat_ext; [exact HM|]; intros; apply (scol_ext _ m); auto; intros; rewrite E1, at_rep; auto.
  all: destruct Sp as (E1 & La & Lb & Ea & Eb & _).
  1: eapply wp_mono; [apply (st3_to_array_ok h m); [rewrite E1, repeat_length; auto|auto|auto]|];
     intros M HM; eapply is_mat_ext; [exact HM|]; intros; apply (scol_ext _ m); auto; intros; rewrite E1, at_rep; auto.
  all: eapply wp_mono; [apply (st4_to_array_ok h m); [rewrite E1, repeat_length; auto|auto|auto]|];
     intros M HM; eapply is_mat_ext; [exact HM|]; intros; apply (scol_ext _ m); auto; intros; rewrite E1, at_rep; auto.
Qed.

Section Vec.
Context {T : Type} {V : Vec R T} {L : VecR T}.

Lemma is_matvec_ext n m S S' (v u : list T) :
  (forall i j, (i < n)%nat -> (j < m)%nat -> S i j = S' i j) -> is_matvec n m S v u -> is_matvec n m S' v u.
Proof. intros E [H1 H2]. split; auto. intros i Hi. rewrite H2 by auto. apply vsum_ext. intros. rewrite E; auto. Qed.

Lemma normal_eq_ext n m S S' (u v : list T) :
  (forall i j, (i < n)%nat -> (j < m)%nat -> S i j = S' i j) -> normal_eq n m S u v -> normal_eq n m S' u v.
Proof.
  intros E [H1 H2]. split; auto. intros j Hj.
  rewrite (vsum_ext m _ (fun k => vmul v.[k] (rsum n (fun r => S r j * S r k)))).
  2:{ intros. f_equal. apply rsum_ext. intros. rewrite !E; auto. }
  rewrite H2 by auto. apply vsum_ext. intros. rewrite E; auto.
Qed.

Lemma to_ortho_ok k n c (v u : list T) : compo_new k n = Ok c -> biharmonic k = false ->
  length v = sdim k n -> length u = n ->
  wp (compo_to_ortho c v u) (is_matvec n (sdim k n) (smat k) v).
Proof.
  intros H Hb Lv Lu. apply compo_new_inv in H as (Hs & _ & _ & _ & Sp). unfold compo_to_ortho, stencil_dot, smat.
  pose proof (sdim_eq k n Hs) as En. set (m := sdim k n) in *. rewrite En.
  destruct k, (p_st c) as [h|h|h|h|h]; cbn [st_spec] in Sp; try contradiction; try discriminate; cbn [sstep] in *.
  1,2: destruct Sp as (E1 & L2 & E2 & _); eapply wp_mono; [apply (st2_dot_ok h m); rewrite ?E1, ?repeat_length; auto; cbn in Hs; lia|];
       intros M HM; eapply is_matvec_ext; [|exact HM]; intros; apply (scol_ext _ m); auto; intros; rewrite E1, at_rep; auto.
  destruct Sp as (E1 & La & Lb & Ea & Eb & _).
  eapply wp_mono; [apply (st3_dot_ok h m); rewrite ?E1, ?repeat_length; auto; cbn in Hs; lia|];
     intros M HM; eapply is_matvec_ext; [|exact HM]; intros; apply (scol_ext _ m); auto; intros; rewrite E1, at_rep; auto.
Qed.

Lemma to_ortho_UB k n c (v u : list T) : compo_new k n = Ok c -> biharmonic k = true ->
  length v = sdim k n -> length u = n -> compo_to_ortho c v u = UB.
Proof.
  intros H Hb Lv Lu. apply compo_new_inv in H as (Hs & _ & _ & _ & Sp). unfold compo_to_ortho, stencil_dot.
  pose proof (sdim_eq k n Hs) as En. set (m := sdim k n) in *.
  destruct k, (p_st c) as [h|h|h|h|h]; cbn [st_spec] in Sp; try contradiction; try discriminate; cbn [sstep smin] in *.
  all: destruct Sp as (E1 & La & Lb & Ea & Eb & _); apply (st4_dot_UB h m); rewrite ?E1, ?repeat_length; auto; lia.
Qed.

Lemma from_ortho_ok k n c (u v : list T) : compo_new k n = Ok c -> (ssolve k <= n)%nat ->
  length u = n -> length v = sdim k n ->
  wp (compo_from_ortho c u v) (normal_eq n (sdim k n) (smat k) u).
Proof.
  intros H Hn Lu Lv. apply compo_new_inv in H as (Hs & _ & _ & _ & Sp). unfold compo_from_ortho, stencil_solve, smat.
  pose proof (sdim_eq k n Hs) as En. set (m := sdim k n) in *. rewrite En.
  destruct k, (p_st c) as [h|h|h|h|h]; cbn [st_spec] in Sp; try contradiction; cbn [sstep ssolve] in *.
  1,2: destruct Sp as (E1 & L2 & E2 & E3); eapply wp_mono; [apply (st2_solve_ok h m); auto; try (rewrite ?E1, ?repeat_length; auto using rep1_nz; lia)|];
       intros M HM; eapply normal_eq_ext; [|exact HM]; intros; apply (scol_ext _ m); auto; intros; rewrite E1, at_rep; auto.
  all: destruct Sp as (E1 & La & Lb & Ea & Eb & E3).
  1: eapply wp_mono; [apply (st3_solve_ok h m); auto; try (rewrite ?E1, ?repeat_length; auto using rep1_nz; lia)|].
  2,3: eapply wp_mono; [apply (st4_solve_ok h m); auto; try (rewrite ?E1, ?repeat_length; auto using rep1_nz; lia)|].
  all: intros M HM; eapply normal_eq_ext; [|exact HM]; intros; apply (scol_ext _ m); auto; intros; rewrite E1, at_rep; auto.
Qed.

(** The normal equations have exactly one solution. *)
Lemma normal_eq_unique k m (u v w : list T) :
  normal_eq (m + 2 * sstep k) m (smat k) u v -> normal_eq (m + 2 * sstep k) m (smat k) u w -> v = w.
Proof.
  intros [Lv Hv] [Lw Hw].
  assert (Hs : (0 < sstep k)%nat) by (destruct k; cbn; lia).
  assert (NS : nonsing m (gram (sstep k) m (fun _ => 1) (slowa k) (slowb k))).
  { apply (pos_def_leading m); auto. apply gram_pos_def; auto; intros; lra. }
  set (b := map (fun j => vsum (m + 2 * sstep k) (fun r => vmul u.[r] (smat k r j))) (seq 0 m)).
  apply (solves_unique m _ v w b NS).
  - split; auto. intros i Hi. unfold b. rewrite at_map_seq by auto. cbn [Nat.add]. rewrite <- Hv by auto. reflexivity.
  - split; auto. intros i Hi. unfold b. rewrite at_map_seq by auto. cbn [Nat.add]. rewrite <- Hw by auto. reflexivity.
Qed.

(** v solves the normal equations of S v *)
Lemma normal_eq_of_matvec n m S (v u : list T) : length v = m -> is_matvec n m S v u -> normal_eq n m S u v.
Proof.
  intros Lv [Lu Eu]. split; auto. intros j Hj. apply vext. intros p. rewrite !vproj_vsum.
  transitivity (rsum n (fun r => rsum m (fun k => vproj p v.[k] * S r k * S r j))).
  2:{ apply rsum_ext. intros r Hr. rewrite vproj_mul, Eu, vproj_vsum by auto. rewrite <- rsum_scal_r. apply rsum_ext. intros. rewrite vproj_mul. ring. }
  rewrite rsum_swap. apply rsum_ext. intros k Hk. rewrite vproj_mul. rewrite <- rsum_scal_l. apply rsum_ext. intros. ring.
Qed.
End Vec.

Lemma stencil_inv_ok k n c : compo_new k n = Ok c ->
  wp (compo_stencil_inv c) (fun P => mat_dims P (sdim k n) n /\ left_inv n (sdim k n) (fun i j => P.[i].[j]) (smat k)).
Proof.
  intros H. apply compo_new_inv in H as (Hs & _ & _ & _ & Sp). unfold compo_stencil_inv, stencil_pinv, smat.
  pose proof (sdim_eq k n Hs) as En. set (m := sdim k n) in *. rewrite En.
  assert (X : forall P S S', (forall i j, (j < m)%nat -> S i j = S' i j) -> left_inv (m + 2 * sstep k) m P S -> left_inv (m + 2 * sstep k) m P S').
  { intros P S S' E HL i j Hi Hj. rewrite <- (HL i j Hi Hj). apply rsum_ext. intros. rewrite E; auto. }
  destruct k, (p_st c) as [h|h|h|h|h]; cbn [st_spec] in Sp; try contradiction; cbn [sstep] in *.
  1,2: destruct Sp as (E1 & L2 & E2 & E3); eapply wp_mono; [apply (st2_pinv_ok m h); auto; rewrite E1, ?repeat_length; auto using rep1_nz|].
  3: destruct Sp as (E1 & La & Lb & Ea & Eb & E3); eapply wp_mono; [apply (st3_pinv_ok m h); auto; rewrite E1, ?repeat_length; auto using rep1_nz|].
  4,5: destruct Sp as (E1 & La & Lb & Ea & Eb & E3); eapply wp_mono; [apply (st4_pinv_ok m h); auto; rewrite E1, ?repeat_length; auto using rep1_nz|].
  all: intros P [HD HL]; split; [exact HD|]; eapply X; [|exact HL]; intros; apply (scol_ext _ m); auto; intros; rewrite E1, at_rep; auto.
Qed.
