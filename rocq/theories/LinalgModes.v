(** The bounds-checked and the unchecked band solvers agree: same result, and
    where the unchecked one would be undefined the checked one panics. *)
From Coq Require Import List Arith Lia Bool.
From Verif Require Import Base Num Linalg.
Import ListNotations.

(** [agree c u]: c is u with undefined behaviour replaced by a panic. *)
Definition agree {A} (c u : res A) : Prop :=
  match u with Ok a => c = Ok a | Panic => c = Panic | UB => c = Panic end.

Lemma agree_refl_ok {A} (a : A) : agree (Ok a) (Ok a).
Proof. reflexivity. Qed.
Lemma agree_assert b : agree (assertb b) (assertb b).
Proof. destruct b; reflexivity. Qed.
Lemma agree_bind {A B} (c u : res A) (f g : A -> res B) :
  agree c u -> (forall a, agree (f a) (g a)) -> agree (bind c f) (bind u g).
Proof. destruct u; simpl; intros -> H; simpl; auto. Qed.
Lemma agree_lift2 {A B C} (f : A -> B -> C) a b a' b' :
  agree a a' -> agree b b' -> agree (lift2 f a b) (lift2 f a' b').
Proof. intros. unfold lift2. apply agree_bind; auto. intros. apply agree_bind; auto. intros; reflexivity. Qed.
Lemma agree_rd {A} (l : list A) i : agree (rd Checked l i) (rd Unchecked l i).
Proof. unfold rd. destruct (nth_error l i); reflexivity. Qed.
Lemma agree_st {A} (l : list A) i e e' : agree e e' -> agree (st Checked l i e) (st Unchecked l i e').
Proof.
  intros H. unfold st. apply agree_bind; auto. intros x. unfold wr. destruct (i <? length l); reflexivity.
Qed.
Lemma agree_for {I S} (l : list I) (f g : I -> S -> res S) s :
  (forall i s, agree (f i s) (g i s)) -> agree (for_each l f s) (for_each l g s).
Proof. intros H. revert s. induction l; intros; simpl. reflexivity. apply agree_bind; auto. Qed.

Lemma agree_isub n k : agree (isub Checked n k) (isub Unchecked n k).
Proof. unfold isub. destruct (k <=? n); reflexivity. Qed.

Ltac agr :=
  repeat first
   [ apply agree_refl_ok | apply agree_assert | apply agree_rd | apply agree_isub | apply agree_st | apply agree_lift2
   | apply agree_for; intros ? ? | apply agree_bind; [|intros ?]
   | match goal with
     | |- agree (if ?b then _ else _) (if ?b then _ else _) => destruct b
     | |- agree (match ?s with mkpd _ _ _ _ _ => _ end) _ => destruct s
     end ].

Section Modes.
Context {A T : Type} {N : Num A} {V : Vec A T}.

Lemma tdma_modes (l2 d0 u2 : list A) (rhs : list T) :
  agree (tdma Checked l2 d0 u2 rhs) (tdma Unchecked l2 d0 u2 rhs).
Proof. unfold tdma. cbv zeta. agr. Qed.

Lemma pdma_modes (l2 l1 d0 u1 u2 : list A) (rhs : list T) :
  agree (pdma Checked l2 l1 d0 u1 u2 rhs) (pdma Unchecked l2 l1 d0 u1 u2 rhs).
Proof. unfold pdma. cbv zeta. agr. Qed.

Lemma pdma2_modes (l4 l2 d0 u2 u4 : list A) (rhs : list T) :
  agree (pdma2 Checked l4 l2 d0 u2 u4 rhs) (pdma2 Unchecked l4 l2 d0 u2 u4 rhs).
Proof. unfold pdma2, pdma2_head, pdma2_rows, pdma2_back. cbv zeta. agr. Qed.
End Modes.

Lemma small_sizes_panic (A T : Type) (N : Num A) (V : Vec A T) md
    (l4 l2 l1 d0 u1 u2 u4 : list A) (rhs : list T) :
  (length rhs <= 2 -> tdma md l2 d0 u2 rhs = Panic) /\
  (length rhs <= 3 -> pdma md l2 l1 d0 u1 u2 rhs = Panic) /\
  (length rhs <= 5 -> pdma2 md l4 l2 d0 u2 u4 rhs = Panic).
Proof.
  unfold tdma, pdma, pdma2. repeat split; intros H; cbv zeta.
  - destruct (Nat.ltb_spec 2 (length rhs)); [lia|reflexivity].
  - destruct (Nat.ltb_spec 3 (length rhs)); [lia|reflexivity].
  - destruct (Nat.ltb_spec 5 (length rhs)); [lia|reflexivity].
Qed.
