(** Proofs about pdma2 and tdma: what the loops compute. *)
From Coq Require Import List Arith Lia Bool ZArith Reals Lra.
From Verif Require Import Base Num Linalg LinalgProofs.
Import ListNotations.
Local Open Scope R_scope.

Lemma range_empty lo hi : (hi <= lo)%nat -> range lo hi = [].
Proof. intros. unfold range. replace (hi - lo)%nat with 0%nat by lia. reflexivity. Qed.

Ltac frame :=
  repeat match goal with
  | F : forall j, j <> _ -> ?l.[j] = _ |- context [?l.[?k]] => rewrite (F k) by lia
  end.

Section Pd3.
Context {T : Type} {V : Vec R T} {L : VecR T}.

Lemma pdma2_head_run md l4 l2 d0 u2 u4 (rhs : list T) n :
  n = length rhs ->
  (5 < n)%nat ->
  length l4 = (n-4)%nat -> length l2 = (n-2)%nat -> length d0 = n ->
  length u2 = (n-2)%nat -> length u4 = (n-4)%nat ->
  wp (pdma2_head md l2 d0 u2 u4 rhs (repeat n0 (n-2)) (repeat n0 (n-4)) (repeat v0 n)
        (repeat n0 n) (repeat n0 n))
     (pd_inv n 2 l4 l2 d0 u2 u4 rhs 4).
Proof.
  intros En Hn H4 H2 H0 H2' H4'. unfold pdma2_head.
  pose proof (repeat_length (n0:R) (n-2)) as Ra.
  pose proof (repeat_length (n0:R) (n-4)) as Rb.
  pose proof (repeat_length (v0:T) n) as Rz.
  pose proof (repeat_length (n0:R) n) as Rg.
  pose proof (at_repeat_dflt (A:=R) (n-2)) as Da.
  pose proof (at_repeat_dflt (A:=R) (n-4)) as Db.
  pose proof (at_repeat_dflt (A:=R) n) as Dg.
  change (@dflt R dflt_num) with (n0:R) in *.
  set (al0 := repeat (n0:R) (n-2)) in *. set (be0 := repeat (n0:R) (n-4)) in *.
  set (ze0 := repeat (v0:T) n) in *. set (ga0 := repeat (n0:R) n) in *.
  clearbody al0 be0 ze0 ga0. numR.
  wps.
  destruct (Nat.ltb_spec 2 (length u4)); wps;
  (destruct (Nat.ltb_spec 3 (length u4)); [try lia|]; wps);
  (split; [unfold pd_lens; repeat split; lia|];
   intros j Hj; assert (j = 0 \/ j = 1 \/ j = 2 \/ j = 3)%nat as [->|[->|[->| ->]]] by lia; row).
Qed.

Lemma isub_ok md n k : (k <= n)%nat -> isub md n k = Ok (n - k)%nat.
Proof. intros. unfold isub. destruct (Nat.leb_spec k n); [reflexivity|lia]. Qed.

Lemma pdma2_rows_run md l4 l2 d0 u2 u4 (rhs : list T) s :
  let n := length rhs in
  (5 < n)%nat ->
  length l4 = (n-4)%nat -> length l2 = (n-2)%nat -> length d0 = n ->
  length u2 = (n-2)%nat -> length u4 = (n-4)%nat ->
  pd_inv n 2 l4 l2 d0 u2 u4 rhs 4 s ->
  wp (pdma2_rows md l4 l2 d0 u2 u4 rhs s) (pd_inv n 2 l4 l2 d0 u2 u4 rhs n).
Proof.
  intros n Hn H4 H2 H0 H2' H4' Hs. unfold pdma2_rows. fold n. cbv zeta. numR.
  apply wp_bind.
  apply (wp_mono _ (pd_inv n 2 l4 l2 d0 u2 u4 rhs (Nat.max 4 (n - 4)))).
  { destruct (le_dec 4 (n-4)).
    - apply (wp_for_each_range 4 (n-4) _ (pd_inv n 2 l4 l2 d0 u2 u4 rhs)); auto.
      + clear Hs. intros i [al be ze ga mu] Hi HI. destruct HI as [(La & Lb & Lz & Lg & Lm) HE].
        wps. split; [unfold pd_lens; repeat split; lia|].
        apply elim_le_eq.
        * intros j Hj. apply (elim_frame 2 _ _ _ _ _ _ al be ze ga mu _ _ _ _ _ i); auto; try lia; intros; rdx; auto.
        * row.
      + intros s1. replace (Nat.max 4 (n-4)) with (n-4)%nat by lia. auto.
    - rewrite range_empty by lia. simpl for_each. replace (Nat.max 4 (n-4)) with 4%nat by lia. auto. }
  clear s Hs. intros s Hs. apply wp_bind.
  (* row n-4 *)
  apply (wp_mono _ (pd_inv n 2 l4 l2 d0 u2 u4 rhs (Nat.max 4 (n - 3)))).
  { destruct (Nat.ltb_spec 3 (length l4)).
    - destruct s as [al be ze ga mu]. destruct Hs as [(La & Lb & Lz & Lg & Lm) HE].
      replace (Nat.max 4 (n-4)) with (n-4)%nat in HE by lia.
      replace (Nat.max 4 (n-3)) with (n-4+1)%nat by lia.
      rewrite isub_ok by lia. cbn [bind].
      wps. split; [unfold pd_lens; repeat split; lia|].
      apply elim_le_eq.
      + intros j Hj. apply (elim_frame 2 _ _ _ _ _ _ al be ze ga mu _ _ _ _ _ (n-4)); auto; try lia; intros; rdx; auto.
      + row.
    - replace (Nat.max 4 (n-3)) with (Nat.max 4 (n-4)) by lia. exact Hs. }
  clear s Hs. intros s Hs. apply wp_bind.
  (* row n-3 *)
  apply (wp_mono _ (pd_inv n 2 l4 l2 d0 u2 u4 rhs (n - 2))).
  { destruct (Nat.ltb_spec 2 (length l4)).
    - destruct s as [al be ze ga mu]. destruct Hs as [(La & Lb & Lz & Lg & Lm) HE].
      replace (Nat.max 4 (n-3)) with (n-3)%nat in HE by lia.
      rewrite isub_ok by lia. cbn [bind].
      wps. split; [unfold pd_lens; repeat split; lia|].
      replace (n - 2)%nat with (n - 3 + 1)%nat by lia.
      apply elim_le_eq.
      + intros j Hj. apply (elim_frame 2 _ _ _ _ _ _ al be ze ga mu _ _ _ _ _ (n-3)); auto; try lia; intros; rdx; auto.
      + row.
    - replace (n-2)%nat with (Nat.max 4 (n-3)) by lia. exact Hs. }
  clear s Hs. intros [al be ze ga mu] HI. destruct HI as [(La & Lb & Lz & Lg & Lm) HE].
  wps. split; [unfold pd_lens; repeat split; lia|].
  intros j Hj. assert (j < n - 2 \/ j = n - 2 \/ j = n - 1)%nat as [Hc|[->| ->]] by lia.
  - apply (elim_frame 2 _ _ _ _ _ _ al be ze ga mu _ _ _ _ _ (n-2)); auto; try lia; intros; rdx; auto.
  - row.
  - row.
Qed.

Lemma pdma2_back_run md (rhs : list T) al be ze ga mu :
  let n := length rhs in
  (5 < n)%nat ->
  pd_lens n 2 al be ze ga mu ->
  wp (pdma2_back md rhs (mkpd al be ze ga mu)) (fun x => length x = n /\
    forall j, (j < n)%nat -> back_eq 2 al be ze x j).
Proof.
  intros n Hn (La & Lb & Lz & Lg & Lm). unfold pdma2_back. fold n. cbv zeta. wps.
  apply (wp_for_each_rev 0 (n-4) _ (fun k x => length x = n /\
     forall j, (k <= j < n)%nat -> back_eq 2 al be ze x j)); [lia| | |].
  + split; [lia|]. intros j Hj.
    assert (j = n - 4 \/ j = n - 3 \/ j = n - 2 \/ j = n - 1)%nat as [->|[->|[->| ->]]] by lia; back.
  + clear - L Hn La Lb Lz. intros i x Hi [Lx HB]. wps.
    split; [lia|]. intros j Hj. destruct (Nat.eq_dec j i) as [->|].
    * back.
    * unfold back_eq. rewrite !HF by lia. apply HB; lia.
  + intros x [Lx HB]. split; [lia|]. intros; apply HB; lia.
Qed.

Lemma pdma2_run md l4 l2 d0 u2 u4 (rhs : list T) :
  let n := length rhs in
  (5 < n)%nat ->
  length l4 = (n-4)%nat -> length l2 = (n-2)%nat -> length d0 = n ->
  length u2 = (n-2)%nat -> length u4 = (n-4)%nat ->
  wp (pdma2 md l4 l2 d0 u2 u4 rhs) (fun x => length x = n /\
    exists al be ze ga mu, pd_lens n 2 al be ze ga mu /\
      (forall j, (j < n)%nat -> elim_eq 2 l4 l2 d0 u2 u4 rhs al be ze ga mu j) /\
      (forall j, (j < n)%nat -> back_eq 2 al be ze x j)).
Proof.
  intros n Hn H4 H2 H0 H2' H4'. unfold pdma2. fold n. cbv zeta.
  apply wp_bind. apply wp_assert. apply Nat.ltb_lt; lia.
  apply wp_bind. eapply wp_mono. { apply (pdma2_head_run md l4); auto. }
  intros s Hs. cbv beta. apply wp_bind. eapply wp_mono. { apply pdma2_rows_run; auto. }
  clear s Hs. intros [al be ze ga mu] [HL HE].
  eapply wp_mono. { apply pdma2_back_run; eauto. }
  intros x [Lx HB]. split; auto. exists al, be, ze, ga, mu. auto.
Qed.

(** tdma is the special case of a missing outer band. *)
Lemma tdma_run md l2 d0 u2 (rhs : list T) :
  let n := length rhs in
  (2 < n)%nat ->
  length l2 = (n-2)%nat -> length d0 = n -> length u2 = (n-2)%nat ->
  wp (tdma md l2 d0 u2 rhs) (fun x => length x = n /\
    exists w g,
      length w = (n-2)%nat /\ length g = n /\
      (forall j, (j < n-2)%nat -> w.[j] = u2.[j] / (d0.[j] - zat l2 j 2 * zat w j 2)) /\
      (forall j, (j < n)%nat -> g.[j] = vdiv (vsub rhs.[j] (vmul (zat g j 2) (zat l2 j 2)))
                                             (d0.[j] - zat l2 j 2 * zat w j 2)) /\
      (forall j, (j < n)%nat -> x.[j] = vsub g.[j] (vmul x.[j+2] w.[j]))).
Proof.
  intros n Hn H2 H0 H2'. unfold tdma. fold n.
  pose proof (repeat_length (n0:R) (n-2)) as Rw.
  pose proof (repeat_length (v0:T) n) as Rg.
  set (w0 := repeat (n0:R) (n-2)) in *. set (g0 := repeat (v0:T) n) in *.
  cbv zeta. apply wp_bind. apply wp_assert. apply Nat.ltb_lt; lia.
  clearbody w0 g0. numR.
  wps.
  (* w[1] *)
  apply (wp_mono _ (fun w => length w = (n-2)%nat /\
     forall j, (j < Nat.min 2 (n-2))%nat -> w.[j] = u2.[j] / (d0.[j] - zat l2 j 2 * zat w j 2))).
  { destruct (Nat.ltb_spec 1 (length u2)).
    - wps. split; [lia|]. intros j Hj. assert (j = 0 \/ j = 1)%nat as [->| ->] by lia;
      zats; rewrite ?dflt_R; rdx; f_equal; ring.
    - unfold wp. split; [lia|]. intros j Hj. assert (j = 0)%nat as -> by lia.
      zats; rewrite ?dflt_R; rdx; f_equal; ring. }
  intros w1 [Lw1 Ew1]. clear l HL HE HF Rw w0. cbv beta. wps.
  (* w loop *)
  apply (wp_mono _ (fun w => length w = (n-2)%nat /\
     forall j, (j < n-2)%nat -> w.[j] = u2.[j] / (d0.[j] - zat l2 j 2 * zat w j 2))).
  { destruct (le_dec 2 (n-2)).
    - apply (wp_for_each_range 2 (n-2) _ (fun k w => length w = (n-2)%nat /\
         forall j, (j < k)%nat -> w.[j] = u2.[j] / (d0.[j] - zat l2 j 2 * zat w j 2))); auto.
      + split; auto. intros; apply Ew1; lia.
      + clear Ew1 Lw1 w1. intros i w Hi [Lw Ew]. wps. split; [lia|].
        intros j Hj. destruct (Nat.eq_dec j i) as [->|].
        * zats. rdx. reflexivity.
        * frame. rewrite (Ew j) by lia. unfold zat.
          destruct (Nat.ltb_spec j 2); auto. frame. auto.
    - rewrite range_empty by lia. simpl. split; auto. intros; apply Ew1; lia. }
  clear w1 Lw1 Ew1. intros w [Lw Ew]. cbv beta. apply wp_bind.
  apply (wp_for_each_range 2 n _ (fun k g => length g = n /\
     forall j, (j < k)%nat -> g.[j] = vdiv (vsub rhs.[j] (vmul (zat g j 2) (zat l2 j 2)))
                                             (d0.[j] - zat l2 j 2 * zat w j 2))).
  { lia. }
  { split; [lia|]. intros j Hj. assert (j = 0 \/ j = 1)%nat as [->| ->] by lia;
    zats; rewrite ?dflt_R, ?vsub_0mul; rdx; f_equal; ring. }
  { clear l0 HL0 HE0 HF0 l HL HE HF. intros i g Hi [Lg Eg].
    wps. split; [lia|].
    intros j Hj. destruct (Nat.eq_dec j i) as [->|].
    - zats. rdx. reflexivity.
    - frame. rewrite (Eg j) by lia. unfold zat.
      destruct (Nat.ltb_spec j 2); auto. frame. auto. }
  clear l0 HL0 HE0 HF0 l HL HE HF Rg g0. intros g [Lg Eg]. wps.
  apply (wp_for_each_rev 1 (n-1) _ (fun k x => length x = n /\
     forall j, (k <= j + 1)%nat -> (j < n)%nat -> x.[j] = vsub g.[j] (vmul x.[j+2] w.[j]))).
  { lia. }
  { split; [lia|]. intros j Hj1 Hj. assert (j = n-2 \/ j = n-1)%nat as [->| ->] by lia.
    - rewrite (at_over w) by lia. rewrite dflt_R, vsub_mul0. rdx. auto.
    - rewrite (at_over w) by lia. rewrite dflt_R, vsub_mul0. rdx. auto. }
  { clear l0 HL0 HE0 HF0 l HL HE HF. intros i x Hi [Lx Ex]. wps. split; [lia|].
    intros j Hj1 Hj. destruct (Nat.eq_dec j (i-1)) as [->|].
    - rdx. replace (i - 1 + 2)%nat with (i + 1)%nat by lia. auto.
    - frame. apply Ex; lia. }
  intros x [Lx Ex]. split; auto. exists w, g. repeat split; auto.
  intros; apply Ex; lia.
Qed.
End Pd3.
