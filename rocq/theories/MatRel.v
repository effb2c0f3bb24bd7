(** The same program run in two arithmetics: both return, with related
    results, or both stop in the same way.  Used to compare the matrices in
    f64 with those in exact arithmetic. *)
From Coq Require Import List Arith Lia Bool ZArith.
From Verif Require Import Base Num.
Import ListNotations.

Definition rrel {A B} (Q : A -> B -> Prop) (m : res A) (m' : res B) : Prop :=
  match m, m' with Ok a, Ok b => Q a b | Panic, Panic => True | UB, UB => True | _, _ => False end.

Lemma rrel_Ok {A B} (Q : A -> B -> Prop) a b : Q a b -> rrel Q (Ok a) (Ok b).
Proof. auto. Qed.
Lemma rrel_Panic {A B} (Q : A -> B -> Prop) : rrel Q Panic Panic.
Proof. exact I. Qed.
Lemma rrel_same {A} (m : res A) : rrel eq m m.
Proof. destruct m; cbn; auto. Qed.
Lemma rrel_bind {A B A' B'} (Q : A -> B -> Prop) (Q' : A' -> B' -> Prop) m m' k k' :
  rrel Q m m' -> (forall a b, Q a b -> rrel Q' (k a) (k' b)) -> rrel Q' (bind m k) (bind m' k').
Proof. destruct m, m'; cbn; auto; tauto. Qed.
(** the same integer computation on both sides *)
Lemma rrel_bind_same {Z A' B'} (Q' : A' -> B' -> Prop) (m : res Z) k k' :
  (forall a, m = Ok a -> rrel Q' (k a) (k' a)) -> rrel Q' (bind m k) (bind m k').
Proof. destruct m; cbn; auto. Qed.
Lemma rrel_mono {A B} (Q Q' : A -> B -> Prop) m m' :
  rrel Q m m' -> (forall a b, Q a b -> Q' a b) -> rrel Q' m m'.
Proof. destruct m, m'; cbn; auto. Qed.
Lemma rrel_for_each {I S S'} (Q : S -> S' -> Prop) (l : list I) f f' s s' :
  Q s s' -> (forall i s s', In i l -> Q s s' -> rrel Q (f i s) (f' i s')) ->
  rrel Q (for_each l f s) (for_each l f' s').
Proof.
  revert s s'. induction l; intros s s' H F; cbn [for_each]; auto.
  eapply rrel_bind. apply F; [left; auto|auto]. intros. apply IHl; auto. intros; apply F; auto. right; auto.
Qed.

Lemma Forall2_length {A B} {Q : A -> B -> Prop} {l l'} : Forall2 Q l l' -> length l = length l'.
Proof. induction 1; cbn; auto. Qed.

(** matrices with related entries: same shape, entry by entry *)
Definition lrel {A B} (Q : A -> B -> Prop) : list A -> list B -> Prop := Forall2 Q.
Definition mrel {A B} (Q : A -> B -> Prop) : list (list A) -> list (list B) -> Prop := Forall2 (Forall2 Q).

Lemma rrel_rd {A B} (Q : A -> B -> Prop) m l l' i : Forall2 Q l l' -> rrel Q (rd m l i) (rd m l' i).
Proof.
  intros H. revert i. induction H; intros [|i]; unfold rd; cbn; try (destruct m; exact I); auto. apply IHForall2.
Qed.
Lemma upd_rel {A B} (Q : A -> B -> Prop) l l' i x y : Forall2 Q l l' -> Q x y -> Forall2 Q (upd l i x) (upd l' i y).
Proof. intros H HQ. revert i. induction H; intros [|i]; cbn; auto. Qed.
Lemma rrel_wr {A B} (Q : A -> B -> Prop) m l l' i x y : Forall2 Q l l' -> Q x y -> rrel (Forall2 Q) (wr m l i x) (wr m l' i y).
Proof.
  intros H HQ. unfold wr. rewrite (Forall2_length H). destruct (i <? length l'); cbn. apply upd_rel; auto. destruct m; exact I.
Qed.
Lemma rrel_mrd {A B} (Q : A -> B -> Prop) M M' i j : mrel Q M M' -> rrel Q (mrd M i j) (mrd M' i j).
Proof. intros H. unfold mrd. eapply rrel_bind. apply rrel_rd, H. intros. apply rrel_rd; auto. Qed.
Lemma rrel_mwr {A B} (Q : A -> B -> Prop) M M' i j x y : mrel Q M M' -> Q x y -> rrel (mrel Q) (mwr M i j x) (mwr M' i j y).
Proof.
  intros H HQ. unfold mwr. eapply rrel_bind. apply rrel_rd, H. intros r r' Hr. cbv beta in Hr.
  eapply rrel_bind. apply rrel_wr; eauto. intros. apply rrel_wr; auto.
Qed.
Lemma repeat_rel {A B} (Q : A -> B -> Prop) n x y : Q x y -> Forall2 Q (repeat x n) (repeat y n).
Proof. intros H. induction n; cbn; auto. Qed.
Lemma mzeros_rel {A B} (Q : A -> B -> Prop) r c x y : Q x y -> mrel Q (mzeros x r c) (mzeros y r c).
Proof. intros H. apply repeat_rel, repeat_rel, H. Qed.
Lemma map_rel {A B A' B'} (Q : A -> B -> Prop) (Q' : A' -> B' -> Prop) f g l l' :
  Forall2 Q l l' -> (forall a b, Q a b -> Q' (f a) (g b)) -> Forall2 Q' (map f l) (map g l').
Proof. intros H F. induction H; cbn; auto. Qed.
Lemma map_rel_in {I A B} (Q : A -> B -> Prop) (f : I -> A) (g : I -> B) l :
  (forall i, In i l -> Q (f i) (g i)) -> Forall2 Q (map f l) (map g l).
Proof. intros H. induction l; cbn; constructor; [apply H; left; auto|apply IHl; intros; apply H; right; auto]. Qed.
Lemma skipn_rel {A B} (Q : A -> B -> Prop) n l l' : Forall2 Q l l' -> Forall2 Q (skipn n l) (skipn n l').
Proof. intros H. revert n. induction H; intros [|n]; cbn; auto. Qed.

(** from the relation to the entries *)
Lemma lrel_at {A B} {dA : Dflt A} {dB : Dflt B} (Q : A -> B -> Prop) l l' i :
  Forall2 Q l l' -> (i < length l')%nat -> Q l.[i] l'.[i].
Proof.
  intros H. revert i. induction H; intros i Hi; cbn in Hi; [lia|]. destruct i. exact H. apply IHForall2; lia.
Qed.
Lemma mrel_dims {A B} {dA : Dflt A} {dB : Dflt B} (Q : A -> B -> Prop) M M' r c :
  mrel Q M M' -> mat_dims M' r c -> mat_dims M r c.
Proof.
  intros H [L D]. pose proof (Forall2_length H) as E. split; [congruence|]. intros i Hi.
  assert (Hi' : (i < length M')%nat) by congruence.
  assert (F : Forall2 Q (M.[i]) (M'.[i])) by exact (lrel_at (Forall2 Q) M M' i H Hi').
  rewrite (Forall2_length F). auto.
Qed.
Lemma mrel_at {A B} {dA : Dflt A} {dB : Dflt B} (Q : A -> B -> Prop) M M' r c i j :
  mrel Q M M' -> mat_dims M' r c -> (i < r)%nat -> (j < c)%nat -> Q M.[i].[j] M'.[i].[j].
Proof.
  intros H [L D] Hi Hj. assert (Hi' : (i < length M')%nat) by congruence.
  apply lrel_at. exact (lrel_at (Forall2 Q) M M' i H Hi'). rewrite D; auto.
Qed.
