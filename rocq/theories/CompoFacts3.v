(** Composite Chebyshev bases: transforms, gradient, failure modes. *)
From Coq Require Import List Arith Lia Bool ZArith Reals Lra.
From Verif Require Import Base Num Linalg LinalgProofs LinalgSpec LinalgModes Stencils StencilProofs StencilProofs2 Cheb Compo
  ChebPoly ChebGrad ChebMat ChebDct ChebFacts CompoProofs CompoFacts CompoFacts2.
Import ListNotations.
Local Open Scope R_scope.

Lemma new_ortho k n (c : compo R) : compo_new k n = Ok c -> p_ortho c = mk_cheb n n /\ compo_len_orth c = n /\ (4 <= n)%nat /\ cheb_new n = Ok (p_ortho c).
Proof.
  intros H. apply compo_new_inv in H as (Hs & _ & _ & E & _). unfold compo_len_orth. rewrite E.
  assert (4 <= n)%nat by (destruct k; cbn in Hs; lia). repeat split; auto.
  unfold cheb_new. destruct (Nat.leb_spec 2 n); auto; lia.
Qed.

(** the old output does not matter *)
Lemma cheb_backward_out n (a o o' : list R) : length a = n -> length o = n -> length o' = n ->
  cheb_backward (mk_cheb n n) a o = cheb_backward (mk_cheb n n) a o'.
Proof.
  intros La Lo Lo'. unfold cheb_backward. rewrite La, Lo, Lo'. rewrite !zip_write_full; auto;
  rewrite map_length, combine_length, seq_length; lia.
Qed.
Lemma cheb_forward_out n (a o o' : list R) : length a = n -> length o = n -> length o' = n ->
  cheb_forward (mk_cheb n n) a o = cheb_forward (mk_cheb n n) a o'.
Proof.
  intros La Lo Lo'. unfold cheb_forward. rewrite La, Lo, Lo'.
  cbn [c_n]. unfold usub. destruct (1 <=? n)%nat; cbn [bind]; auto. rewrite !zip_write_full; auto; rewrite map_length, rev_length; lia.
Qed.

Lemma cheb_len n c (a o : list R) : cheb_new n = Ok c -> length a = n -> length o = n ->
  wp (cheb_backward c a o) (fun y => length y = n) /\ wp (cheb_forward c a o) (fun y => length y = n).
Proof.
  intros H La Lo. apply cheb_new_inv in H as [Hn ->]. split; (eapply wp_mono; [apply cheb_backward_ok || apply cheb_forward_ok; auto|]); intros ? [? ?]; auto.
Qed.

Section RT.
Context (k : skind) (n : nat) (c : compo R) (H : compo_new k n = Ok c).

Lemma forward_runs x o : (ssolve k <= n)%nat -> length x = n -> length o = compo_len_spec c ->
  wp (compo_forward c x o) (fun v => length v = compo_len_spec c).
Proof.
  rewrite (len_spec_eq k n c H). intros Hn Lx Lo. destruct (new_ortho k n c H) as (Eo & El & H4 & Hc).
  unfold compo_forward. rewrite El. apply wp_bind.
  eapply wp_mono; [apply (proj2 (cheb_len n (p_ortho c) x (repeat 0 n) Hc Lx (repeat_length _ _)))|].
  intros a La. eapply wp_mono; [apply (from_ortho_ok k n c a o H Hn La Lo)|]. intros w [Lw _]; auto.
Qed.

Lemma backward_runs v o : biharmonic k = false -> length v = compo_len_spec c -> length o = n ->
  wp (compo_backward c v o) (fun y => length y = n).
Proof.
  rewrite (len_spec_eq k n c H). intros Hb Lv Lo. destruct (new_ortho k n c H) as (Eo & El & H4 & Hc).
  unfold compo_backward. rewrite El. apply wp_bind.
  eapply wp_mono; [apply (to_ortho_ok k n c v (repeat 0 n) H Hb Lv (repeat_length _ _))|].
  intros a [La _]. apply (proj1 (cheb_len n (p_ortho c) a o Hc La Lo)).
Qed.

Lemma C18_l v o1 o2 : biharmonic k = false -> (ssolve k <= n)%nat ->
  length v = compo_len_spec c -> length o1 = n -> length o2 = compo_len_spec c ->
  (let* x := compo_backward c v o1 in compo_forward c x o2) = Ok v.
Proof.
  intros Hb Hn. rewrite (len_spec_eq k n c H). intros Lv L1 L2. destruct (new_ortho k n c H) as (Eo & El & H4 & Hc).
  unfold compo_backward, compo_forward. rewrite El.
  pose proof (to_ortho_ok k n c v (repeat 0 n) H Hb Lv (repeat_length _ _)) as W. apply wp_Ok in W as (u & Eu & Hu).
  change (repeat (@n0 R num_R) n) with (repeat 0 n). rewrite Eu. cbn [bind].
  pose proof (C01_l n (p_ortho c) u o1 (repeat 0 n) Hc (proj1 Hu) L1 (repeat_length _ _)) as W1.
  destruct (cheb_backward (p_ortho c) u o1) as [y| |]; try contradiction. cbn [bind wp] in *.
  apply wp_Ok in W1 as (u' & -> & ->). cbn [bind]. eapply from_ortho_of_stencil; eauto.
Qed.

Lemma backward_out v o o' : length v = compo_len_spec c -> biharmonic k = false -> length o = n -> length o' = n -> 
  compo_backward c v o = compo_backward c v o'.
Proof.
  rewrite (len_spec_eq k n c H). intros Lv Hb Lo Lo'. destruct (new_ortho k n c H) as (Eo & El & H4 & Hc).
  unfold compo_backward. rewrite El.
  pose proof (to_ortho_ok k n c v (repeat 0 n) H Hb Lv (repeat_length _ _)) as W. apply wp_Ok in W as (u & Eu & Hu).
  change (repeat (@n0 R num_R) n) with (repeat 0 n). rewrite Eu. cbn [bind]. rewrite Eo. apply cheb_backward_out; auto. apply Hu.
Qed.

(** backward after forward is a projection onto grid functions with the right boundary conditions *)
Lemma C18_proj x o1 o2 : biharmonic k = false -> (ssolve k <= n)%nat ->
  length x = n -> length o1 = compo_len_spec c -> length o2 = n ->
  wp (let* v := compo_forward c x o1 in compo_backward c v o2) (fun y =>
    length y = n /\
    (let* v := compo_forward c y o1 in compo_backward c v o2) = Ok y /\
    wp (compo_coords c) (fun xs => exists u : list R, length u = n /\ bc k (peval u tt) /\
       forall j, (j < n)%nat -> y.[j] = peval u tt xs.[j])).
Proof.
  intros Hb Hn Lx L1 L2. destruct (new_ortho k n c H) as (Eo & El & H4 & Hc).
  apply wp_bind. pose proof (forward_runs x o1 Hn Lx L1) as W. apply wp_Ok in W as (v & -> & Lv). cbn [wp].
  pose proof (backward_runs v o2 Hb Lv L2) as W. apply wp_Ok in W as (y & Ey & Ly). rewrite Ey. cbn [wp]. split; auto. split.
  - pose proof (C18_l v o2 o1 Hb Hn Lv L2 L1) as E. rewrite Ey in E. cbn [bind] in E. rewrite E. cbn [bind]. auto.
  - rewrite (len_spec_eq k n c H) in Lv. unfold compo_backward in Ey. rewrite El in Ey.
    pose proof (to_ortho_ok k n c v (repeat 0 n) H Hb Lv (repeat_length _ _)) as W. apply wp_Ok in W as (u & Eu & Hu).
    change (repeat (@n0 R num_R) n) with (repeat 0 n) in Ey. rewrite Eu in Ey. cbn [bind] in Ey.
    pose proof (backward_eval n (p_ortho c) u o2 Hc (proj1 Hu) L2) as W.
    assert (EC : compo_coords c = cheb_coords (p_ortho c)).
    { rewrite Eo. unfold compo_coords, cheb_coords, compo_len_phys. apply compo_new_inv in H as (_ & -> & _). auto. }
    rewrite EC. eapply wp_mono; [exact W|]. intros xs W2. rewrite Ey in W2. cbn [wp] in W2. destruct W2 as [_ W2].
    exists u. split. apply Hu. split.
    + eapply (bc_matvec (L := vecR_R)); [|exact Hu]. apply compo_new_inv in H. apply sdim_eq; tauto.
    + intros j Hj. rewrite W2 by auto. unfold peval. rewrite (proj1 Hu). reflexivity.
Qed.
End RT.

Section Vec.
Context {T : Type} {V : Vec R T} {L : VecR T}.

Lemma gradient_ok k n c (v o : list T) d : compo_new k n = Ok c -> biharmonic k = false ->
  length v = compo_len_spec c -> length o = n ->
  wp (compo_to_ortho c v o) (fun u => length u = n /\
   wp (compo_gradient c v o d) (fun b => length b = n /\ forall p, nth_deriv d (peval u p) (peval b p))).
Proof.
  intros H Hb. rewrite (len_spec_eq k n c H). intros Lv Lo. destruct (new_ortho k n c H) as (Eo & El & H4 & Hc).
  unfold compo_gradient. rewrite El.
  pose proof (to_ortho_ok k n c v o H Hb Lv Lo) as W. apply wp_Ok in W as (u & -> & Hu). cbn [wp].
  split. apply Hu.
  pose proof (to_ortho_ok k n c v (repeat v0 n) H Hb Lv (repeat_length _ _)) as W. apply wp_Ok in W as (u' & -> & Hu'). cbn [bind].
  assert (u' = u).
  { destruct Hu as [Lu Eu], Hu' as [Lu' Eu']. apply list_ext. lia. intros i Hi. rewrite Eu, Eu' by lia. auto. }
  subst u'. apply C05_l; auto; try lia. apply Hu.
Qed.

Lemma gradient_UB k n c (v o : list T) d : compo_new k n = Ok c -> biharmonic k = true ->
  length v = compo_len_spec c -> compo_gradient c v o d = UB.
Proof.
  intros H Hb. rewrite (len_spec_eq k n c H). intros Lv. destruct (new_ortho k n c H) as (Eo & El & H4 & Hc).
  unfold compo_gradient. rewrite El. rewrite (to_ortho_UB k n c v); auto. apply repeat_length.
Qed.

(** ** Wrong slice lengths *)
Lemma for_each_UB {S} lo hi (body : nat -> S -> res S) (I : nat -> S -> Prop) i0 s :
  (lo <= i0 < hi)%nat -> I lo s ->
  (forall i s, (lo <= i < i0)%nat -> I i s -> wp (body i s) (I (Datatypes.S i))) ->
  (forall s, I i0 s -> body i0 s = UB) -> for_each (range lo hi) body s = UB.
Proof.
  intros Hi. unfold range. remember (i0 - lo)%nat as d. revert lo s Heqd Hi.
  induction d; intros lo s Hd Hi Hs HB HU.
  - assert (lo = i0) by lia. subst lo. destruct (hi - i0)%nat eqn:E; [lia|]. simpl. rewrite HU; auto.
  - destruct (hi - lo)%nat eqn:E; [lia|]. simpl. pose proof (HB lo s ltac:(lia) Hs) as W.
    apply wp_Ok in W as (s1 & -> & Hs1). cbn [bind]. replace n with (hi - Datatypes.S lo)%nat by lia.
    apply IHd; auto; try lia. intros; apply HB; auto; lia.
Qed.

Lemma fill_short (n0 w : nat) (u v : list T) (e : nat -> res T) (f : nat -> T) :
  (length u < length v + w)%nat -> (1 <= length v)%nat ->
  (forall i, (i < length v)%nat -> (i + w < length u)%nat -> e i = Ok (f i)) ->
  (forall i, (i < length v)%nat -> (length u <= i + w)%nat -> e i = UB) ->
  for_each (range 0 (length v)) (fun i v => st Unchecked v i (e i)) v = UB.
Proof.
  intros Hu Hv Ok UBk. apply (for_each_UB 0 (length v) _ (fun _ v' => length v' = length v) (length u - w)); auto; try lia.
  - intros i s Hi Hs. apply wp_st. rewrite Ok by lia. cbn [wp]. split; [lia|]. intros; lia.
  - intros s Hs. unfold st. rewrite UBk by lia. reflexivity.
Qed.

Lemma rd_UB {A} {d : Dflt A} (l : list A) i : (length l <= i)%nat -> rd Unchecked l i = UB.
Proof. intros. rewrite rd_oob by auto. reflexivity. Qed.

Lemma rd_cases {A} {d : Dflt A} (l : list A) i : rd Unchecked l i = Ok l.[i] \/ rd Unchecked l i = UB.
Proof. destruct (Nat.lt_ge_cases i (length l)). left; apply rd_at; auto. right; apply rd_UB; auto. Qed.

Lemma from_ortho_short k n c (u o : list T) : compo_new k n = Ok c ->
  (length u < n)%nat -> length o = compo_len_spec c -> compo_from_ortho c u o = UB.
Proof.
  intros H. rewrite (len_spec_eq k n c H). intros Lu Lo. apply compo_new_inv in H as (Hs & _ & _ & _ & Sp). unfold compo_from_ortho, stencil_solve.
  pose proof (sdim_eq k n Hs) as En. set (m := sdim k n) in *.
  destruct k, (p_st c) as [h|h|h|h|h]; cbn [st_spec] in Sp; try contradiction; cbn [sstep smin] in *.
  1,2: destruct Sp as (E1 & L2 & _); unfold st2_solve; assert (length (d2_diag h) = m) by (rewrite E1, repeat_length; auto);
    (erewrite (fill_short n 2 u o); [reflexivity|lia|lia| |];
     [ intros i Hi Hiw; rdok; reflexivity
     | intros i Hi Hiw; rewrite (rd_UB u (i+2)) by lia; destruct (rd_cases u i) as [-> | ->]; rdok; reflexivity]).
  all: destruct Sp as (E1 & La & Lb & _); assert (length (d3_diag h) = m) by (rewrite E1, repeat_length; auto).
  1: unfold st3_solve;
    (erewrite (fill_short n 2 u o); [reflexivity|lia|lia| |];
     [ intros i Hi Hiw; rdok; reflexivity
     | intros i Hi Hiw; rewrite (rd_UB u (i+2)) by lia; destruct (rd_cases u i) as [-> | ->]; destruct (rd_cases u (i+1)) as [-> | ->]; rdok; reflexivity]).
  all: unfold st4_solve;
    (erewrite (fill_short n 4 u o); [reflexivity|lia|lia| |];
     [ intros i Hi Hiw; rdok; reflexivity
     | intros i Hi Hiw; rewrite (rd_UB u (i+4)) by lia; destruct (rd_cases u i) as [-> | ->]; destruct (rd_cases u (i+2)) as [-> | ->]; rdok; reflexivity]).
Qed.

Lemma st_ok (u : list T) i (e : res T) x : e = Ok x -> (i < length u)%nat -> exists u', st Unchecked u i e = Ok u' /\ length u' = length u.
Proof.
  intros -> Hi. assert (W : wp (st Unchecked u i (Ok x)) (fun u' => length u' = length u)).
  { apply wp_st. cbn [wp]. split; auto. }
  apply wp_Ok in W. auto.
Qed.

Ltac sstep_ok := match goal with |- context [st Unchecked ?u ?i ?e] =>
  let u' := fresh "u" in let E := fresh "E" in let Lu := fresh "Lu" in
  edestruct (st_ok u i e) as (u' & E & Lu); [rdok; reflexivity|lia|]; rewrite E; cbn [bind]; clear E end.

Lemma to_ortho_long k n c (v o : list T) : compo_new k n = Ok c ->
  length v = compo_len_spec c -> (n < length o)%nat -> compo_to_ortho c v o = UB.
Proof.
  intros H. rewrite (len_spec_eq k n c H). intros Lv Lo. apply compo_new_inv in H as (Hs & _ & _ & _ & Sp). unfold compo_to_ortho, stencil_dot.
  pose proof (sdim_eq k n Hs) as En. set (m := sdim k n) in *.
  assert (GO : forall lo hi (e : nat -> res T) w, (lo <= m < hi)%nat -> (m <= length w)%nat -> 
     (forall i, (lo <= i < m)%nat -> exists x, e i = Ok x) -> e m = UB ->
     for_each (range lo hi) (fun i u => st Unchecked u i (e i)) w = UB).
  { intros lo hi e w Hm Hw HO HU. apply (for_each_UB lo hi _ (fun _ w' => length w' = length w) m); auto.
    - intros i s Hi Ls. destruct (HO i Hi) as [x ->]. apply wp_st. cbn [wp]. split; [lia|]. intros; lia.
    - intros s Ls. unfold st. rewrite HU. reflexivity. }
  destruct k, (p_st c) as [h|h|h|h|h]; cbn [st_spec] in Sp; try contradiction; cbn [sstep smin] in *.
  1,2: destruct Sp as (E1 & L2 & _); assert (length (d2_diag h) = m) by (rewrite E1, repeat_length; auto);
    unfold st2_dot; rewrite Lv, H, Nat.eqb_refl; cbn [assertb bind]; repeat sstep_ok; rewrite usub_ok by lia; cbn [bind];
    rewrite GO; [reflexivity|lia|lia|intros; rdok; eauto|rewrite (rd_UB v) by lia; reflexivity].
  all: destruct Sp as (E1 & La & Lb & _); assert (length (d3_diag h) = m) by (rewrite E1, repeat_length; auto).
  1: unfold st3_dot; rewrite Lv, H, Nat.eqb_refl; cbn [assertb bind]; repeat sstep_ok; rewrite usub_ok by lia; cbn [bind];
    rewrite GO; [reflexivity|lia|lia|intros; rdok; eauto|rewrite (rd_UB v) by lia; reflexivity].
  all: unfold st4_dot; rewrite Lv, H, Nat.eqb_refl; cbn [assertb bind]; repeat sstep_ok; rewrite usub_ok by lia; cbn [bind];
    rewrite GO; [reflexivity|lia|lia|intros; rdok; eauto|rewrite (rd_UB v) by lia; reflexivity].
Qed.
End Vec.
