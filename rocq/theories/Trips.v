(** C69: a transform that goes there and back is repeated. *)
From Coq Require Import List Arith ZArith Reals Bool Lra Lia.
From Flocq Require Import Core.
From Verif Require Import Base Num Fourier FourierFacts RndFft RndAxis RndSpace Rounding.
Import ListNotations.
Local Open Scope R_scope.

(** ** Specification. [repeat_trip k trip x] runs [trip] [k] times, starting with [x]. *)
Fixpoint repeat_trip {X} (k : nat) (trip : X -> res X) (x : X) : res X :=
  match k with 0%nat => Ok x | S k => let* y := trip x in repeat_trip k trip y end.

Lemma repeat_last {X} k (trip : X -> res X) x y z : repeat_trip k trip x = Ok y -> trip y = Ok z -> repeat_trip (S k) trip x = Ok z.
Proof.
  revert x. induction k; intros x H1 H2.
  - cbn in H1. injection H1 as ->. cbn. rewrite H2. reflexivity.
  - cbn [repeat_trip] in H1. destruct (trip x) as [w| |] eqn:E; cbn [bind] in H1; try discriminate.
    change (bind (trip x) (repeat_trip (S k) trip) = Ok z). rewrite E. cbn [bind]. apply IHk; auto.
Qed.

(** ** If one trip makes an error of at most e |x| + t, then k trips make one of at
    most 2 k (e |x| + t), as long as 2 k e times the number of entries is at most 1. *)
Section Trips.
Context {X P : Type} (D : P -> Prop) (Sg : (P -> R) -> R) (M : R) (HS : isum D Sg M).
Context (fin : X -> Prop) (val : X -> P -> CR) (K : P -> CR -> CR).
Context (K_twice : forall p z, K p (K p z) = K p z) (K_close : forall p z w, cn (csub (K p z) (K p w)) <= cn (csub z w)) (K_le : forall p z, cn (K p z) <= cn z).
Context (e t top : R) (trip : X -> res X) (He : 0 <= e) (Ht : 0 <= t) (HM : 0 <= M).
Context (step : forall x, fin x -> Sg (fun p => cn (val x p)) <= top ->
  exists y, trip x = Ok y /\ fin y /\ forall p, D p -> cn (csub (val y p) (K p (val x p))) <= e * Sg (fun p => cn (val x p)) + t).
Lemma many_trips k x : fin x -> let Sum := Sg (fun p => cn (val x p)) in
  2 * INR k * M * e <= 1 -> 2 * Sum + 2 * INR k * M * t <= top ->
  exists y, repeat_trip k trip x = Ok y /\ fin y /\
    (k <> 0%nat -> forall p, D p -> cn (csub (val y p) (K p (val x p))) <= 2 * INR k * (e * Sum + t)) /\
    (k = 0%nat -> y = x).
Proof.
  intros Fx Sum. assert (S0 : 0 <= Sum). { unfold Sum. replace 0 with (Sg (fun _ => 0)). apply (is_le _ _ _ HS). intros; apply cn_pos. rewrite (is_const _ _ _ HS). ring. }
  assert (B0 : 0 <= e * Sum + t). { assert (0 <= e * Sum) by (apply Rmult_le_pos; auto). lra. }
  induction k as [|k IH]; intros H1 H2.
  { exists x. split; [reflexivity|]. split; auto. split; auto. congruence. }
  rewrite S_INR in *. pose proof (pos_INR k) as Kp. set (q := INR k) in *.
  assert (Me : 0 <= M * e) by (apply Rmult_le_pos; auto). assert (Mt : 0 <= M * t) by (apply Rmult_le_pos; auto).
  assert (H1' : 2 * q * (M * e) <= 1). { replace (2 * (q + 1) * M * e) with (2 * q * (M * e) + 2 * (M * e)) in H1 by ring. lra. }
  replace (2 * (q + 1) * M * t) with (2 * q * (M * t) + 2 * (M * t)) in H2 by ring.
  destruct IH as (y & Ey & Fy & Ny & Zy). rewrite <- Rmult_assoc in H1'. exact H1'. replace (2 * q * M * t) with (2 * q * (M * t)) by ring. lra.
  (* the size of y *)
  assert (SY : Sg (fun p => cn (val y p)) <= Sum + M * (2 * q * (e * Sum + t))).
  { destruct k as [|k].
    - rewrite (Zy eq_refl). unfold q. cbn [INR]. unfold Sum. rewrite Rmult_0_r, Rmult_0_l, Rmult_0_r. lra.
    - rewrite <- (is_const _ _ _ HS). unfold Sum. rewrite <- (is_add _ _ _ HS). apply (is_le _ _ _ HS). intros p Hp.
      eapply Rle_trans; [apply (cn_split _ (K p (val x p)))|]. apply Rplus_le_compat. apply K_le. specialize (Ny ltac:(discriminate) p Hp).
      fold Sum. replace (cn (csub (K p (val x p)) (val y p))) with (cn (csub (val y p) (K p (val x p)))) by (unfold cn, csub; cbn [fst snd nsub num_R]; rewrite (Rabs_minus_sym (fst (val y p))), (Rabs_minus_sym (snd (val y p))); reflexivity). exact Ny. }
  assert (E1 : M * (2 * q * (e * Sum + t)) = (2 * q * (M * e)) * Sum + 2 * q * (M * t)) by ring.
  assert (E2 : 2 * q * (M * e) * Sum <= 1 * Sum) by (apply Rmult_le_compat_r; lra).
  destruct (step y Fy) as (z & Ez & Fz & Nz). lra.
  exists z. split. eapply repeat_last; eauto. split; auto. split; [intros _ p Hp|congruence].
  specialize (Nz p Hp). eapply Rle_trans; [apply (cn_csub _ (K p (val y p)))|].
  assert (L : cn (csub (K p (val y p)) (K p (val x p))) <= 2 * q * (e * Sum + t)).
  { destruct k as [|k]. rewrite (Zy eq_refl), cn_csub_self. unfold q. cbn [INR]. lra.
    rewrite <- (K_twice p (val x p)). eapply Rle_trans; [apply K_close|]. apply Ny; auto. }
  assert (eS : e * Sg (fun p => cn (val y p)) <= e * (Sum + M * (2 * q * (e * Sum + t)))) by (apply Rmult_le_compat_l; auto).
  replace (e * (Sum + M * (2 * q * (e * Sum + t)))) with (e * Sum + (2 * q * (M * e)) * (e * Sum + t)) in eS by ring.
  assert (2 * q * (M * e) * (e * Sum + t) <= 1 * (e * Sum + t)) by (apply Rmult_le_compat_r; lra).
  replace (2 * (q + 1) * (e * Sum + t)) with (2 * q * (e * Sum + t) + (e * Sum + t) + (e * Sum + t)) by ring. lra.
Qed.
End Trips.
Lemma isum3 n m l : isum (D3 n m l) (S3 n m l) (1 * INR n * INR m * INR l).
Proof. exact (isum_times _ _ _ l (isum2 n m)). Qed.
