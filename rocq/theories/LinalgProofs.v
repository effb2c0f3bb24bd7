(** Proofs about the banded solvers (Linalg.v). *)
From Coq Require Import List Arith Lia Bool ZArith Reals Lra.
From Verif Require Import Base Num Linalg.
Import ListNotations.
Local Open Scope R_scope.

Lemma wp_st {A} {d : Dflt A} md (l : list A) i (e : res A) (Q : list A -> Prop) :
  wp e (fun x => (i < length l)%nat /\
     forall l', length l' = length l -> l'.[i] = x ->
     (forall j, j <> i -> l'.[j] = l.[j]) -> Q l') ->
  wp (st md l i e) Q.
Proof.
  intros H. unfold st. apply wp_bind. eapply wp_mono; eauto.
  intros a [Hi HQ]. simpl. apply wp_wr; auto.
Qed.

(** Symbolic execution. *)
Ltac lens := solve [ lia | simpl in *; lia ].
Ltac wp1 :=
  match goal with
  | |- wp (bind _ _) _ => apply wp_bind
  | |- wp (lift2 _ _ _) _ => apply wp_lift2
  | |- wp (rd _ _ _) _ => apply wp_rd; [ lens | ]
  | |- wp (Ok _) _ => simpl
  | |- wp (st _ _ _ _) _ => apply wp_st
  | |- wp (assertb _) _ => apply wp_assert; [ apply Nat.ltb_lt; lens | ]
  | |- _ /\ (forall _, _ -> _) =>
      split; [ lens | let l := fresh "l" in let HL := fresh "HL" in let HE := fresh "HE" in
                      let HF := fresh "HF" in intros l HL HE HF ]
  end.
Ltac wps := repeat (wp1; cbv beta).

(** Rewrite reads of updated arrays. *)
Ltac unify_idx :=
  repeat match goal with
  | |- context [?l.[?a]] =>
      match goal with |- context [l.[?b]] =>
        tryif constr_eq a b then fail else (replace b with a by lia) end
  end.
Ltac rdx :=
  repeat (match goal with
  | E : ?l.[?k] = _ |- context [?l.[?k]] => rewrite E
  | E : ?l.[?k] = _ |- context [?l.[?k']] => replace k' with k by lia; rewrite E
  | F : forall j, j <> ?i -> ?l.[j] = _ |- context [?l.[?k]] => rewrite (F k) by lia
  | F : forall j, ?l.[j] = _ |- context [?l.[?k]] => rewrite (F k)
  end).

Section Pd.
Context {T : Type} {V : Vec R T} {L : VecR T}.

(** reading [k] places below [i], zero if there is no such place *)
Definition zat {B} {d : Dflt B} (l : list B) (i k : nat) : B :=
  if (i <? k)%nat then dflt else l.[i - k].

Lemma zat_lt {B} {d : Dflt B} (l : list B) i k : (i < k)%nat -> zat l i k = dflt.
Proof. unfold zat. intros. destruct (Nat.ltb_spec i k); auto; lia. Qed.
Lemma zat_ge {B} {d : Dflt B} (l : list B) i k : (k <= i)%nat -> zat l i k = l.[i - k].
Proof. unfold zat. intros. destruct (Nat.ltb_spec i k); auto; lia. Qed.

(** The elimination equations at index j, stride s, for the bands
    l4 (-2s), l2 (-s), d0, u2 (+s), u4 (+2s). *)
Definition elim_eq (s : nat) (l4 l2 d0 u2 u4 : list R) (rhs : list T)
           (al be : list R) (ze : list T) (ga mu : list R) (j : nat) : Prop :=
  ga.[j] = zat l2 j s - zat al j (2*s) * zat l4 j (2*s) /\
  mu.[j] = d0.[j] - zat be j (2*s) * zat l4 j (2*s) - zat al j s * ga.[j] /\
  ((j < length al)%nat -> al.[j] = (u2.[j] - zat be j s * ga.[j]) / mu.[j]) /\
  ((j < length be)%nat -> be.[j] = u4.[j] / mu.[j]) /\
  ze.[j] = vdiv (vsub (vsub rhs.[j] (vmul (zat ze j (2*s)) (zat l4 j (2*s))))
                      (vmul (zat ze j s) ga.[j])) mu.[j].

Definition back_eq (s : nat) (al be : list R) (ze x : list T) (j : nat) : Prop :=
  x.[j] = vsub (vsub ze.[j] (vmul x.[j + s] al.[j])) (vmul x.[j + 2*s] be.[j]).

(** Row j of the banded product. *)
Definition band_row (s : nat) (l4 l2 d0 u2 u4 : list R) (x : list T) (j : nat) : T :=
  vadd (vadd (vadd (vadd (vmul (zat x j (2*s)) (zat l4 j (2*s)))
                         (vmul (zat x j s) (zat l2 j s)))
                   (vmul x.[j] d0.[j]))
             (vmul x.[j + s] u2.[j]))
       (vmul x.[j + 2*s] u4.[j]).

Lemma dfltT p : vproj p (@dflt T dflt_vec) = 0.
Proof. apply vproj_0. Qed.

Lemma solve_row s n l4 l2 d0 u2 u4 rhs al be ze ga mu x :
  (0 < s)%nat ->
  length u2 = (n - s)%nat -> length u4 = (n - 2*s)%nat ->
  length al = (n - s)%nat -> length be = (n - 2*s)%nat -> length x = n ->
  (forall j, (j < n)%nat -> elim_eq s l4 l2 d0 u2 u4 rhs al be ze ga mu j) ->
  (forall j, (j < n)%nat -> back_eq s al be ze x j) ->
  (forall j, (j < n)%nat -> mu.[j] <> 0) ->
  forall j, (j < n)%nat -> band_row s l4 l2 d0 u2 u4 x j = rhs.[j].
Proof.
  intros Hs Hu2 Hu4 Hal Hbe Hx HE HB Hmu j Hj.
  destruct (HE j Hj) as (Ega & Emu & Eal & Ebe & Eze).
  pose proof (Hmu j Hj) as Hm.
  (* al, be equations valid also out of range *)
  assert (Eal' : al.[j] * mu.[j] = if (j + s <? n)%nat then u2.[j] - zat be j s * ga.[j] else 0).
  { destruct (Nat.ltb_spec (j + s) n).
    - rewrite Eal by lia. field. auto.
    - rewrite (at_over al) by lia. rewrite dflt_R. ring. }
  assert (Ebe' : be.[j] * mu.[j] = u4.[j]).
  { destruct (lt_dec j (n - 2*s)).
    - rewrite Ebe by lia. field. auto.
    - rewrite (at_over be), (at_over u4) by lia. rewrite dflt_R. ring. }
  assert (Zbe : (n <= j + s)%nat -> zat be j s = 0).
  { intros. unfold zat. destruct (Nat.ltb_spec j s); [reflexivity|].
    rewrite at_over by lia. reflexivity. }
  assert (Zu : (n <= j + s)%nat -> u2.[j] = 0).
  { intros. rewrite at_over by lia. reflexivity. }
  unfold band_row. vcoord.
  assert (Bj := f_equal (vproj p) (HB j Hj)).
  rewrite !vproj_sub, !vproj_mul in Bj.
  assert (Zj := f_equal (vproj p) Eze).
  rewrite vproj_div, !vproj_sub, !vproj_mul in Zj.
  assert (Zj' : vproj p ze.[j] * mu.[j] =
    vproj p rhs.[j] - vproj p (zat ze j (2*s)) * zat l4 j (2*s) - vproj p (zat ze j s) * ga.[j]).
  { rewrite Zj. field. auto. }
  (* x at j-s and j-2s *)
  assert (B1 : vproj p (zat x j s) * (if (j <? s)%nat then 0 else 1) =
    (if (j <? s)%nat then 0 else
     vproj p (zat ze j s) - vproj p x.[j] * zat al j s - vproj p x.[j+s] * zat be j s)).
  { destruct (Nat.ltb_spec j s). ring.
    rewrite !zat_ge by lia.
    assert (B := f_equal (vproj p) (HB (j-s)%nat ltac:(lia))).
    rewrite !vproj_sub, !vproj_mul in B.
    replace (j - s + s)%nat with j in B by lia.
    replace (j - s + 2*s)%nat with (j + s)%nat in B by lia.
    rewrite B. ring. }
  assert (B2 : vproj p (zat x j (2*s)) * (if (j <? 2*s)%nat then 0 else 1) =
    (if (j <? 2*s)%nat then 0 else
     vproj p (zat ze j (2*s)) - vproj p (zat x j s) * zat al j (2*s)
     - vproj p x.[j] * zat be j (2*s))).
  { destruct (Nat.ltb_spec j (2*s)). ring.
    rewrite !zat_ge by lia.
    assert (B := f_equal (vproj p) (HB (j-2*s)%nat ltac:(lia))).
    rewrite !vproj_sub, !vproj_mul in B.
    replace (j - 2*s + s)%nat with (j - s)%nat in B by lia.
    replace (j - 2*s + 2*s)%nat with j in B by lia.
    rewrite B. ring. }
  set (X := vproj p x.[j]) in *. set (Xs := vproj p x.[j+s]) in *.
  set (Xss := vproj p x.[j+2*s]) in *.
  set (G := ga.[j]) in *. set (M := mu.[j]) in *. set (D := d0.[j]) in *.
  set (RH := vproj p rhs.[j]) in *. set (Z := vproj p ze.[j]) in *.
  clearbody X Xs Xss M D RH Z.
  assert (HXM : X * M = RH - vproj p (zat ze j (2*s)) * zat l4 j (2*s)
                 - vproj p (zat ze j s) * G - Xs * (al.[j] * M) - Xss * (be.[j] * M)).
  { rewrite Bj. rewrite <- Zj'. ring. }
  rewrite Eal', Ebe' in HXM.
  assert (HU : Xs * (if (j + s <? n)%nat then u2.[j] - zat be j s * G else 0)
               = Xs * (u2.[j] - zat be j s * G)).
  { destruct (Nat.ltb_spec (j+s) n); auto. rewrite Zbe, Zu by lia. ring. }
  rewrite HU in HXM. clear HU Eal' Ebe' Zbe Zu.
  destruct (lt_dec j s) as [H1|H1].
  - (* first block *)
    unfold zat in *. destruct (Nat.ltb_spec j s); [|lia]. destruct (Nat.ltb_spec j (2*s)); [|lia].
    rewrite ?dflt_R, ?dfltT in *.
    assert (G = 0) by (rewrite Ega; ring).
    assert (M = D) by (rewrite Emu, H2; ring). rewrite <- H3. rewrite H2 in HXM. 
    replace (X * M) with (RH - 0 * 0 - 0 * 0 - Xs * (u2.[j] - 0 * 0) - Xss * u4.[j]). ring.
  - destruct (lt_dec j (2*s)) as [H2|H2].
    + unfold zat in *. destruct (Nat.ltb_spec j s); [lia|]. destruct (Nat.ltb_spec j (2*s)); [|lia].
      rewrite ?dflt_R, ?dfltT in *. rewrite Rmult_1_r in B1. 
      assert (EG : l2.[j-s] = G) by (rewrite Ega; ring).
      assert (ED : D = M + al.[j-s] * G) by (rewrite Emu; ring).
      rewrite EG, ED, B1. 
      transitivity (X * M + vproj p ze.[j-s] * G + Xs * (u2.[j] - be.[j-s]*G) + Xss * u4.[j]). ring.
      rewrite HXM. ring.
    + unfold zat in *. destruct (Nat.ltb_spec j s); [lia|]. destruct (Nat.ltb_spec j (2*s)); [lia|].
      rewrite Rmult_1_r in B1, B2.
      assert (EG : l2.[j-s] = G + al.[j-2*s] * l4.[j-2*s]) by (rewrite Ega; ring).
      assert (ED : D = M + be.[j-2*s] * l4.[j-2*s] + al.[j-s] * G) by (rewrite Emu; ring).
      rewrite EG, ED. rewrite B2.
      set (XM := vproj p x.[j-s]) in *.
      transitivity (X * M + vproj p ze.[j-2*s] * l4.[j-2*s] + (XM + X * al.[j-s]) * G
                    + Xs * u2.[j] + Xss * u4.[j]). ring.
      rewrite HXM, B1. ring.
Qed.

(** ** Executing pdma *)
Definition pd_lens (n s : nat) (al be : list R) (ze : list T) (ga mu : list R) : Prop :=
  length al = (n - s)%nat /\ length be = (n - 2*s)%nat /\ length ze = n /\ length ga = n /\ length mu = n.

Lemma elim_frame s l4 l2 d0 u2 u4 rhs al be ze ga mu al' be' ze' ga' mu' k :
  length al' = length al -> length be' = length be ->
  (forall j, (j < k)%nat -> al'.[j] = al.[j]) -> (forall j, (j < k)%nat -> be'.[j] = be.[j]) ->
  (forall j, (j < k)%nat -> ze'.[j] = ze.[j]) -> (forall j, (j < k)%nat -> ga'.[j] = ga.[j]) ->
  (forall j, (j < k)%nat -> mu'.[j] = mu.[j]) ->
  forall j, (j < k)%nat -> (0 < s)%nat ->
  elim_eq s l4 l2 d0 u2 u4 rhs al be ze ga mu j ->
  elim_eq s l4 l2 d0 u2 u4 rhs al' be' ze' ga' mu' j.
Proof.
  intros La Lb Fa Fb Fz Fg Fm j Hj Hs (E1 & E2 & E3 & E4 & E5).
  assert (Za : forall q, (0 < q)%nat -> zat al' j q = zat al j q).
  { intros; unfold zat. destruct (j <? q)%nat; auto. apply Fa. lia. }
  assert (Zb : forall q, (0 < q)%nat -> zat be' j q = zat be j q).
  { intros; unfold zat. destruct (j <? q)%nat; auto. apply Fb. lia. }
  assert (Zz : forall q, (0 < q)%nat -> zat ze' j q = zat ze j q).
  { intros; unfold zat. destruct (j <? q)%nat; auto. apply Fz. lia. }
  unfold elim_eq. rewrite !Za, !Zb, !Zz, Fa, Fb, Fz, Fg, Fm, La, Lb by lia.
  repeat split; auto.
Qed.

Lemma vsub_mul0 x y : vsub x (vmul y 0) = x.
Proof. vcoord. ring. Qed.
Lemma vsub_0mul x a : vsub x (vmul dflt a) = x.
Proof. vcoord. rewrite dfltT. ring. Qed.

Lemma elim_le_eq s l4 l2 d0 u2 u4 rhs al be ze ga mu k :
  (forall j, (j < k)%nat -> elim_eq s l4 l2 d0 u2 u4 rhs al be ze ga mu j) ->
  elim_eq s l4 l2 d0 u2 u4 rhs al be ze ga mu k ->
  forall j, (j < k + 1)%nat -> elim_eq s l4 l2 d0 u2 u4 rhs al be ze ga mu j.
Proof. intros. destruct (Nat.eq_dec j k); subst; auto. apply H; lia. Qed.

Definition pd_inv n s l4 l2 d0 u2 u4 rhs (k : nat) (q : pd_state (A:=R) (T:=T)) : Prop :=
  let 'mkpd al be ze ga mu := q in
  pd_lens n s al be ze ga mu /\
  (forall j, (j < k)%nat -> elim_eq s l4 l2 d0 u2 u4 rhs al be ze ga mu j).

End Pd.

Ltac zats :=
  repeat match goal with
  | |- context [zat ?l ?i ?k] => first [ rewrite (zat_lt l i k) by lia | rewrite (zat_ge l i k) by lia ]
  end.
Ltac row :=
  unfold elim_eq; zats; rewrite ?dflt_R, ?vsub_0mul; numR;
  repeat match goal with |- _ /\ _ => split | |- (_ < _)%nat -> _ => intro end;
  try lia; cbn [Nat.sub Nat.mul Nat.add] in *; rdx; unify_idx; numR; rewrite ?vsub_0mul, ?vsub_mul0; try reflexivity;
  try (unfold Rdiv; ring).

Ltac wps_until x :=
  repeat (lazymatch goal with
          | |- wp (bind (st _ x _ _) _) _ => fail
          | _ => wp1; cbv beta end).
Ltac back :=
  unfold back_eq; cbn [Nat.mul Nat.add] in *; rdx;
  repeat match goal with |- context [@at_ ?A ?d ?l ?i] =>
    rewrite (@at_over A d l i) by lia end;
  rewrite ?dflt_R, ?vsub_0mul, ?vsub_mul0; rdx; unify_idx; try reflexivity.

Section Pd2.
Context {T : Type} {V : Vec R T} {L : VecR T}.
Lemma pdma_run md l2 l1 d0 u1 u2 (rhs : list T) :
  let n := length rhs in
  (3 < n)%nat ->
  length l2 = (n-2)%nat -> length l1 = (n-1)%nat -> length d0 = n ->
  length u1 = (n-1)%nat -> length u2 = (n-2)%nat ->
  wp (pdma md l2 l1 d0 u1 u2 rhs) (fun x => length x = n /\
    exists al be ze ga mu, pd_lens n 1 al be ze ga mu /\
      (forall j, (j < n)%nat -> elim_eq 1 l2 l1 d0 u1 u2 rhs al be ze ga mu j) /\
      (forall j, (j < n)%nat -> back_eq 1 al be ze x j)).
Proof.
  intros n Hn H2 H1 H0 H1' H2'. unfold pdma. fold n.
  pose proof (repeat_length (n0:R) (n-1)) as Ra.
  pose proof (repeat_length (n0:R) (n-2)) as Rb.
  pose proof (repeat_length (v0:T) n) as Rz.
  pose proof (repeat_length (n0:R) n) as Rg.
  pose proof (at_repeat_dflt (A:=R) (n-1)) as Da.
  pose proof (at_repeat_dflt (A:=R) (n-2)) as Db.
  pose proof (at_repeat_dflt (A:=R) n) as Dg.
  change (@dflt R dflt_num) with (n0:R) in *.
  set (al0 := repeat (n0:R) (n-1)) in *. set (be0 := repeat (n0:R) (n-2)) in *.
  set (ze0 := repeat (v0:T) n) in *. set (ga0 := repeat (n0:R) n) in *.
  cbv zeta. apply wp_bind. apply wp_assert. apply Nat.ltb_lt; lia.
  clearbody al0 be0 ze0 ga0.
  do 60 (try (wp1; cbv beta)).
  apply wp_bind. numR.
  apply (wp_for_each_range 2 (n-2) _ (pd_inv n 1 l2 l1 d0 u1 u2 rhs)); [lia| | |].
  - split; [unfold pd_lens; repeat split; lia|].
    intros j Hj. assert (j = 0 \/ j = 1)%nat as [-> | ->] by lia; row.
  - clear - L Hn H0 H1 H2 H1' H2'. intros i [al be ze ga mu] Hi HI. destruct HI as [(La & Lb & Lz & Lg & Lm) HE].
    wps. split; [unfold pd_lens; repeat split; lia|].
    apply elim_le_eq.
    + intros j Hj. apply (elim_frame 1 _ _ _ _ _ _ al be ze ga mu _ _ _ _ _ i); auto; intros; rdx; auto.
    + row.
  - clear - L Hn H0 H1 H2 H1' H2'. intros [al be ze ga mu] HI. destruct HI as [(La & Lb & Lz & Lg & Lm) HE].
    wps_until rhs.
    assert (LL : pd_lens n 1 l3 be l7 l5 l6) by (unfold pd_lens; repeat split; lia).
    assert (HEl : forall j, (j < n)%nat -> elim_eq 1 l2 l1 d0 u1 u2 rhs l3 be l7 l5 l6 j).
    { intros j Hj. assert (j < n - 2 \/ j = n - 2 \/ j = n - 1)%nat as [Hc|[->| ->]] by lia.
      - apply (elim_frame 1 _ _ _ _ _ _ al be ze ga mu _ _ _ _ _ (n-2)); auto; intros; rdx; auto.
      - row.
      - row. }
    clear - L Hn LL HEl. pose proof LL as (La & Lb & Lz & Lg & Lm). wps.
    apply (wp_for_each_rev 0 (n-2) _ (fun k x => length x = n /\
       forall j, (k <= j < n)%nat -> back_eq 1 l3 be l7 x j)); [lia| | |].
    + split; [lia|]. intros j Hj. assert (j = n - 2 \/ j = n - 1)%nat as [->| ->] by lia; back.
    + clear - L Hn La Lb Lz. intros i x Hi [Lx HB]. wps.
      split; [lia|]. intros j Hj. destruct (Nat.eq_dec j i) as [->|].
      * back.
      * unfold back_eq. rewrite !HF by lia. apply HB; lia.
    + intros x [Lx HB]. split; [lia|]. exists l3, be, l7, l5, l6.
      split; [auto|]. split; [auto|]. intros; apply HB; lia.
Qed.
End Pd2.
