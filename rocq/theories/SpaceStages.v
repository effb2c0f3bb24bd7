(** Two and three axis-wise operations in a row, along distinct axes. *)
From Coq Require Import List Arith Lia Bool ZArith Reals Lra Permutation.
From Verif Require Import Base Num NdArray NdArrayFacts AxisFacts Bases BaseLin LibBase AxisProps PropAxis SpaceFacts.
Import ListNotations.
Local Open Scope nat_scope.

Section Two.
Context {T1 T2 T3 : Type} {V1 : Vec R T1} {V2 : Vec R T2} {V3 : Vec R T3} {d1 : Dflt T1} {d2 : Dflt T2} {d3 : Dflt T3}.
Variables (f1 : list T1 -> list T2 -> res (list T2)) (f2 : list T2 -> list T3 -> res (list T3)).
Variables (n1 m1 x1 n2 m2 x2 : nat) (zo : zip_order).
Hypotheses (Hz : zip_ok zo) (Hx : x1 <> x2).

Definition stage2 (a : arr T1) (o : arr T3) : res (arr T3) :=
  let* m := axop f1 n1 m1 zo a x1 in apply_along_axis dflt f2 n2 m2 (zo (shp m) (shp o) x2) m o x2.

Lemma stage2_runs a o : linop f1 n1 m1 -> linop f2 n2 m2 -> std a = true -> nth_error (shp a) x1 = Some n1 -> nth_error (shp a) x2 = Some n2 ->
  wf o -> std o = true -> shp o = upd (upd (shp a) x1 m1) x2 m2 ->
  exists m r, stage2 a o = Ok r /\ axis_op f1 m1 x1 a m /\ axis_op f2 m2 x2 m r.
Proof.
  intros L1 L2 Sa E1 E2 Wo So Sho. destruct (axop_runs f1 n1 m1 zo a x1 L1 Hz Sa E1) as (m & Em & Am).
  unfold stage2. rewrite Em. cbn [bind]. destruct (nth_error_axlen _ _ _ E1) as [H1 _]. destruct (nth_error_axlen _ _ _ E2) as [H2 _].
  pose proof Am as (Sm & Tm & Wm & _).
  assert (E2' : nth_error (shp m) x2 = Some n2) by (rewrite Sm, nth_error_upd_other; auto).
  rewrite (inplace_runs f2 n2 m2 zo m o x2); auto; try (left; auto).
  - destruct (axop_runs f2 n2 m2 zo m x2 L2 Hz Tm E2') as (r & Er & Ar). exists m, r. auto.
  - rewrite Sm; auto.
  - rewrite Sm, upd_length; auto.
Qed.

(** ... and every other combination of shapes and layouts panics. *)
Lemma axop_no f l1 l2 (a : arr T1) ax : nth_error (shp a) ax <> Some l1 \/ std a = false -> axop (T2 := T2) f l1 l2 zo a ax = Panic.
Proof.
  intros H. unfold axop. destruct (le_lt_dec (length (shp a)) ax). { rewrite resized_no by auto. reflexivity. }
  rewrite resized_in by auto. cbn [bind]. apply apply_no_fit. intros F. apply fits_fresh_inv in F. destruct F as [F1 F2], H as [H|H]; congruence.
Qed.
Lemma upd_ext (s s' : list nat) i n n' : nth_error s i = Some n -> nth_error s' i = Some n' -> rm_axis s i = rm_axis s' i -> s' = upd s i n'.
Proof.
  revert s' i. induction s as [|a s IH]; intros [|b s'] [|i] E E' Rm; cbn in *; try discriminate.
  - unfold rm_axis in Rm. cbn in Rm. congruence.
  - unfold rm_axis in Rm. cbn in Rm. inversion Rm; subst. f_equal. apply IH; auto.
Qed.
Lemma stage2_panics a o : linop f1 n1 m1 ->
  ~ (std a = true /\ nth_error (shp a) x1 = Some n1 /\ nth_error (shp a) x2 = Some n2 /\ std o = true /\ shp o = upd (upd (shp a) x1 m1) x2 m2) ->
  stage2 a o = Panic.
Proof.
  intros L1 N. unfold stage2.
  destruct (std a) eqn:Sa; [|rewrite axop_no; auto].
  destruct (option_eq_dec (nth_error (shp a) x1) (Some n1)) as [E1|]; [|rewrite axop_no; auto].
  destruct (axop_runs f1 n1 m1 zo a x1 L1 Hz Sa E1) as (m & Em & Am). rewrite Em. cbn [bind].
  pose proof Am as (Sm & Tm & Wm & _). apply apply_no_fit. intros (_ & So & F1 & F2 & Fr). apply N.
  rewrite Sm, nth_error_upd_other in F1 by auto. split; auto. split; auto. split; auto. split; auto.
  apply (upd_ext _ _ _ n2); auto. rewrite nth_error_upd_other; auto. rewrite <- Sm; auto.
Qed.
End Two.

Section Three.
Context {T1 T2 T3 T4 : Type} {V1 : Vec R T1} {V2 : Vec R T2} {V3 : Vec R T3} {V4 : Vec R T4}
  {d1 : Dflt T1} {d2 : Dflt T2} {d3 : Dflt T3} {d4 : Dflt T4}.
Variables (f1 : list T1 -> list T2 -> res (list T2)) (f2 : list T2 -> list T3 -> res (list T3)) (f3 : list T3 -> list T4 -> res (list T4)).
Variables (n1 m1 x1 n2 m2 x2 n3 m3 x3 : nat) (zo : zip_order).
Hypotheses (Hz : zip_ok zo) (Hx12 : x1 <> x2) (Hx13 : x1 <> x3) (Hx23 : x2 <> x3).

Definition stage3 (a : arr T1) (o : arr T4) : res (arr T4) :=
  let* m := axop f1 n1 m1 zo a x1 in let* m' := axop f2 n2 m2 zo m x2 in
  apply_along_axis dflt f3 n3 m3 (zo (shp m') (shp o) x3) m' o x3.

Lemma stage3_runs a o : linop f1 n1 m1 -> linop f2 n2 m2 -> linop f3 n3 m3 -> std a = true ->
  nth_error (shp a) x1 = Some n1 -> nth_error (shp a) x2 = Some n2 -> nth_error (shp a) x3 = Some n3 ->
  wf o -> std o = true -> shp o = upd (upd (upd (shp a) x1 m1) x2 m2) x3 m3 ->
  exists m m' r, stage3 a o = Ok r /\ axis_op f1 m1 x1 a m /\ axis_op f2 m2 x2 m m' /\ axis_op f3 m3 x3 m' r.
Proof.
  intros L1 L2 L3 Sa E1 E2 E3 Wo So Sho. destruct (axop_runs f1 n1 m1 zo a x1 L1 Hz Sa E1) as (m & Em & Am).
  unfold stage3. rewrite Em. cbn [bind]. pose proof Am as (Sm & Tm & Wm & _).
  destruct (stage2_runs f2 f3 n2 m2 x2 n3 m3 x3 zo Hz Hx23 m o L2 L3 Tm) as (m' & r & Er & A2 & A3); auto.
  - rewrite Sm, nth_error_upd_other; auto.
  - rewrite Sm, nth_error_upd_other; auto.
  - rewrite Sm; auto.
  - exists m, m', r. auto.
Qed.
Lemma stage3_panics a o : linop f1 n1 m1 -> linop f2 n2 m2 ->
  ~ (std a = true /\ nth_error (shp a) x1 = Some n1 /\ nth_error (shp a) x2 = Some n2 /\ nth_error (shp a) x3 = Some n3 /\
     std o = true /\ shp o = upd (upd (upd (shp a) x1 m1) x2 m2) x3 m3) ->
  stage3 a o = Panic.
Proof.
  intros L1 L2 N. unfold stage3.
  destruct (std a) eqn:Sa; [|rewrite axop_no; auto].
  destruct (option_eq_dec (nth_error (shp a) x1) (Some n1)) as [E1|]; [|rewrite axop_no; auto].
  destruct (axop_runs f1 n1 m1 zo a x1 L1 Hz Sa E1) as (m & Em & Am). rewrite Em. cbn [bind].
  pose proof Am as (Sm & Tm & Wm & _). apply (stage2_panics f2 f3 n2 m2 x2 n3 m3 x3 zo Hz Hx23 m o L2).
  intros (_ & F2 & F3 & So & Sho). rewrite Sm in *. rewrite nth_error_upd_other in F2, F3 by auto. apply N. repeat split; auto.
Qed.
End Three.

(** Sequencing parallel calls. *)
Lemma par_then_eq {A B} (m : res A -> Prop) (k : A -> res B -> Prop) (m' : res A) (k' : A -> res B) r :
  (forall x, m x <-> x = m') -> (forall a, m' = Ok a -> (k a r <-> r = k' a)) -> (par_then m k r <-> r = bind m' k').
Proof.
  intros Hm Hk. unfold par_then. split.
  - intros (ra & E & H). apply Hm in E. subst ra. destruct m'; cbn [then_par bind] in *; auto. apply Hk; auto.
  - intros E. exists m'. split. apply Hm; auto. destruct m'; cbn [then_par bind] in *; auto. apply Hk; auto.
Qed.
Lemma bind_Ok_eta {A} (m : res A) : bind m (fun x => Ok x) = m. Proof. destruct m; auto. Qed.
