(** Base: outcomes, slices, loops.

    Not a model of a particular file of /repo: this is the small imperative
    vocabulary the models of all files are written in. *)
From Coq Require Import List Arith Lia Bool.
Import ListNotations.

(** Outcome of running a piece of Rust code.
    [Panic]: assert!/bounds-checked index/debug overflow/todo!().
    [UB]: an out-of-range [get_unchecked]. *)
Inductive res (A : Type) : Type :=
| Ok (a : A)
| Panic
| UB.
Arguments Ok {A} a.
Arguments Panic {A}.
Arguments UB {A}.

(** sequencing: a panic or undefined behaviour ends the computation (semantics of Rust, no single function of the code) *)
Definition bind {A B} (m : res A) (k : A -> res B) : res B :=
  match m with Ok a => k a | Panic => Panic | UB => UB end.

(** an operation on two evaluated operands, left to right (semantics of Rust) *)
Definition lift2 {A B C} (f : A -> B -> C) (a : res A) (b : res B) : res C :=
  bind a (fun x => bind b (fun y => Ok (f x y))).

Notation "'let*' x ':=' m 'in' k" := (bind m (fun x => k))
  (at level 200, x pattern, m at level 100, k at level 200, right associativity).
Notation "m ';;' k" := (bind m (fun _ => k)) (at level 100, right associativity).

(** [assert!(b)] *)
Definition assertb (b : bool) : res unit := if b then Ok tt else Panic.

(** usize subtraction as compiled in debug mode: underflow panics. *)
Definition usub (a b : nat) : res nat := if b <=? a then Ok (a - b) else Panic.

(** How a slice is accessed: [v[i]] or [v.get_unchecked(i)]. *)
Inductive mode := Checked | Unchecked.
(** the index out of bounds: a panic for [a[i]], undefined behaviour for [uget]/[uset] and [get_unchecked] (semantics of Rust and ndarray) *)
Definition oob {A} (m : mode) : res A :=
  match m with Checked => Panic | Unchecked => UB end.

(** reading [a[i]] or [*a.uget(i)] (semantics of Rust and ndarray) *)
Definition rd {A} (m : mode) (l : list A) (i : nat) : res A :=
  match nth_error l i with Some a => Ok a | None => oob m end.

(** the list with entry i replaced (vocabulary) *)
Fixpoint upd {A} (l : list A) (i : nat) (x : A) : list A :=
  match l, i with
  | [], _ => []
  | _ :: t, 0 => x :: t
  | h :: t, S i' => h :: upd t i' x
  end.

(** writing [a[i] = x] or [*a.uget_mut(i) = x] (semantics of Rust and ndarray) *)
Definition wr {A} (m : mode) (l : list A) (i : nat) (x : A) : res (list A) :=
  if i <? length l then Ok (upd l i x) else oob m.

(** Two-dimensional arrays: list of rows. Storage order (.f()) does not
    influence indexing. [mrd]/[mwr] are [mat[[i,j]]]. *)
Definition mrd {A} (M : list (list A)) (i j : nat) : res A :=
  let* r := rd Checked M i in rd Checked r j.
(** writing [m[[i, j]] = x] (semantics of ndarray) *)
Definition mwr {A} (M : list (list A)) (i j : nat) (x : A) : res (list (list A)) :=
  let* r := rd Checked M i in
  let* r' := wr Checked r j x in
  wr Checked M i r'.
(** [Array2::zeros((r, c))] (semantics of ndarray) *)
Definition mzeros {A} (z : A) (r c : nat) : list (list A) := repeat (repeat z c) r.

(** [for x in l { body }] *)
Fixpoint for_each {I S} (l : list I) (body : I -> S -> res S) (s : S) : res S :=
  match l with
  | [] => Ok s
  | i :: l' => let* s' := body i s in for_each l' body s'
  end.

(** [lo..hi] (empty when hi <= lo), [(lo..hi).rev()], [.step_by(k)] *)
Definition range (lo hi : nat) : list nat := seq lo (hi - lo).
(** helper of [step_by] *)
Fixpoint step_by_aux {A} (k c : nat) (l : list A) : list A :=
  match l with
  | [] => []
  | x :: l' => match c with
               | 0 => x :: step_by_aux k (k - 1) l'
               | S c' => step_by_aux k c' l'
               end
  end.
(** [(a..b).step_by(k)] (Rust standard library) *)
Definition step_by {A} (k : nat) (l : list A) : list A := step_by_aux k 0 l.

(** ** Reasoning *)

(** [wp m Q]: m terminates normally (no panic, no UB) with a result in Q. *)
Definition wp {A} (m : res A) (Q : A -> Prop) : Prop :=
  match m with Ok a => Q a | _ => False end.

Lemma wp_Ok {A} (m : res A) Q : wp m Q <-> exists a, m = Ok a /\ Q a.
Proof.
  destruct m; simpl; split; intros H; try tauto; eauto.
  - destruct H as [b [E H]]. inversion E; subst; auto.
  - destruct H as [b [E H]]; discriminate.
  - destruct H as [b [E H]]; discriminate.
Qed.

Lemma wp_bind {A B} (m : res A) (k : A -> res B) Q :
  wp m (fun a => wp (k a) Q) -> wp (bind m k) Q.
Proof. destruct m; simpl; auto. Qed.

Lemma wp_bind_inv {A B} (m : res A) (k : A -> res B) Q :
  wp (bind m k) Q -> wp m (fun a => wp (k a) Q).
Proof. destruct m; simpl; auto. Qed.

Lemma wp_lift2 {A B C} (f : A -> B -> C) a b Q :
  wp a (fun x => wp b (fun y => Q (f x y))) -> wp (lift2 f a b) Q.
Proof. destruct a; simpl; auto. destruct b; simpl; auto. Qed.

Lemma wp_mono {A} (m : res A) (P Q : A -> Prop) :
  wp m P -> (forall a, P a -> Q a) -> wp m Q.
Proof. destruct m; simpl; auto. Qed.

Lemma wp_assert b (Q : unit -> Prop) : b = true -> Q tt -> wp (assertb b) Q.
Proof. intros ->; simpl; auto. Qed.

Lemma wp_usub a b (Q : nat -> Prop) : b <= a -> Q (a - b) -> wp (usub a b) Q.
Proof. intros H HQ. unfold usub. apply Nat.leb_le in H. rewrite H. exact HQ. Qed.

(** Default element used by the total read [at_]; the models' scalars use 0. *)
Class Dflt (A : Type) := dflt : A.
(** the entry k of a list, a default beyond its end (used by specifications and by the external transforms) *)
Definition at_ {A} {d : Dflt A} (l : list A) (i : nat) : A := nth i l dflt.
Notation "l .[ i ]" := (at_ l i) (at level 2, i at level 200, left associativity, format "l .[ i ]").

(** default entry of a list of lists (vocabulary of [at_]) *)
#[export] Instance dflt_list {A} : Dflt (list A) := [].

Section Access.
Context {A : Type} {d : Dflt A}.

Lemma upd_length (l : list A) i x : length (upd l i x) = length l.
Proof. revert i; induction l; destruct i; simpl; auto. Qed.

Lemma at_upd_eq (l : list A) i x : i < length l -> (upd l i x).[i] = x.
Proof.
  unfold at_. revert i; induction l; destruct i; simpl; intros; try lia; auto.
  apply IHl; lia.
Qed.

Lemma at_upd_ne (l : list A) i j x : i <> j -> (upd l i x).[j] = l.[j].
Proof.
  unfold at_. revert i j; induction l; destruct i, j; simpl; intros; try lia; auto.
Qed.

Lemma at_over (l : list A) i : length l <= i -> l.[i] = dflt.
Proof. intros; apply nth_overflow; auto. Qed.

Lemma rd_at m (l : list A) i : i < length l -> rd m l i = Ok (l.[i]).
Proof.
  intros H. unfold rd, at_. rewrite (nth_error_nth' l dflt H). reflexivity.
Qed.

Lemma rd_oob m (l : list A) i : length l <= i -> rd m l i = oob m.
Proof. intros H. unfold rd. apply nth_error_None in H. rewrite H. reflexivity. Qed.

Lemma wp_rd m (l : list A) i (Q : A -> Prop) : i < length l -> Q (l.[i]) -> wp (rd m l i) Q.
Proof. intros H HQ. rewrite rd_at; auto. Qed.

Lemma wp_wr m (l : list A) i x (Q : list A -> Prop) :
  i < length l ->
  (forall l', length l' = length l -> l'.[i] = x ->
     (forall j, j <> i -> l'.[j] = l.[j]) -> Q l') ->
  wp (wr m l i x) Q.
Proof.
  intros H HQ. unfold wr. destruct (Nat.ltb_spec i (length l)); [|lia].
  simpl. apply HQ.
  - apply upd_length.
  - apply at_upd_eq; auto.
  - intros. apply at_upd_ne; auto.
Qed.

Lemma wr_at m (l : list A) i x : i < length l -> wr m l i x = Ok (upd l i x).
Proof. intros H. unfold wr. destruct (Nat.ltb_spec i (length l)); [auto|lia]. Qed.

Lemma list_ext (l l' : list A) :
  length l = length l' -> (forall i, i < length l -> l.[i] = l'.[i]) -> l = l'.
Proof. intros HL HE. apply (nth_ext l l' dflt dflt); auto. Qed.

Lemma at_repeat (x : A) n i : i < n -> (repeat x n).[i] = x.
Proof. unfold at_. revert i; induction n; destruct i; simpl; intros; try lia; auto. apply IHn; lia. Qed.

Lemma at_repeat_dflt n i : (repeat dflt n).[i] = dflt.
Proof. unfold at_. revert i; induction n; destruct i; simpl; auto. Qed.

Lemma at_map {B} {dB : Dflt B} (f : B -> A) (l : list B) i :
  i < length l -> (map f l).[i] = f (l.[i]).
Proof.
  unfold at_. revert i; induction l; destruct i; simpl; intros; try lia; auto. apply IHl; lia.
Qed.

Lemma at_map_seq (f : nat -> A) lo n i : i < n -> (map f (seq lo n)).[i] = f (lo + i).
Proof.
  unfold at_. revert lo i; induction n; destruct i; simpl; intros; try lia.
  - f_equal; lia.
  - rewrite IHn by lia. f_equal; lia.
Qed.

Lemma at_app_l (l l' : list A) i : i < length l -> (l ++ l').[i] = l.[i].
Proof. intros; unfold at_; apply app_nth1; auto. Qed.
Lemma at_app_r (l l' : list A) i : length l <= i -> (l ++ l').[i] = l'.[i - length l].
Proof. intros; unfold at_; apply app_nth2; auto. Qed.

Lemma at_rev (l : list A) i : i < length l -> (rev l).[i] = l.[length l - 1 - i].
Proof.
  intros; unfold at_. rewrite rev_nth by auto. f_equal. lia.
Qed.
End Access.

(** Loop rules. *)
Lemma wp_for_each_range {S} (lo hi : nat) (body : nat -> S -> res S) (I : nat -> S -> Prop) s (Q : S -> Prop) :
  lo <= hi ->
  I lo s ->
  (forall i s, lo <= i < hi -> I i s -> wp (body i s) (I (i + 1))) ->
  (forall s, I hi s -> Q s) ->
  wp (for_each (range lo hi) body s) Q.
Proof.
  intros Hle H0 Hstep HQ. unfold range.
  remember (hi - lo) as n eqn:En.
  revert lo s Hle H0 Hstep En. induction n; intros; simpl.
  - apply HQ. replace hi with lo by lia. auto.
  - apply wp_bind. eapply wp_mono. { apply Hstep; [lia|eauto]. }
    intros s' Hs'. simpl. apply IHn; try lia.
    + replace (Datatypes.S lo) with (lo + 1) by lia. auto.
    + intros; apply Hstep; auto; lia.
Qed.

Lemma range_snoc lo hi : lo < hi -> range lo hi = range lo (hi - 1) ++ [hi - 1].
Proof.
  intros. unfold range. replace (hi - lo) with (S (hi - 1 - lo)) by lia.
  rewrite seq_S. do 2 f_equal. lia.
Qed.

(** Descending loop: [I k] holds when indices >= k have been processed. *)
Lemma wp_for_each_rev {S} (lo hi : nat) (body : nat -> S -> res S) (I : nat -> S -> Prop) s (Q : S -> Prop) :
  lo <= hi ->
  I hi s ->
  (forall i s, lo <= i < hi -> I (i + 1) s -> wp (body i s) (I i)) ->
  (forall s, I lo s -> Q s) ->
  wp (for_each (rev (range lo hi)) body s) Q.
Proof.
  intros Hle H0 Hstep HQ.
  remember (hi - lo) as n eqn:En.
  revert hi s Hle H0 Hstep En. induction n; intros.
  - replace hi with lo by lia. unfold range. rewrite Nat.sub_diag. simpl.
    apply HQ. replace lo with hi by lia. auto.
  - rewrite range_snoc by lia. rewrite rev_app_distr. simpl.
    apply wp_bind. eapply wp_mono.
    { apply Hstep; [lia|]. replace (hi - 1 + 1) with hi by lia. eauto. }
    intros s' Hs'. simpl. apply IHn; try lia; auto.
    intros; apply Hstep; auto; lia.
Qed.

Lemma for_each_app {I S} (l1 l2 : list I) (body : I -> S -> res S) s :
  for_each (l1 ++ l2) body s = bind (for_each l1 body s) (for_each l2 body).
Proof.
  revert s; induction l1; intros; simpl; auto.
  destruct (body a s); simpl; auto.
Qed.

(** General list rule: [I done s]. *)
Lemma wp_for_each {I S} (l : list I) (body : I -> S -> res S) (P : list I -> S -> Prop) s (Q : S -> Prop) :
  P [] s ->
  (forall pre x post s, l = pre ++ x :: post -> P pre s -> wp (body x s) (P (pre ++ [x]))) ->
  (forall s, P l s -> Q s) ->
  wp (for_each l body s) Q.
Proof.
  intros H0 Hstep HQ.
  assert (G : forall post pre s, l = pre ++ post -> P pre s -> wp (for_each post body s) Q).
  { induction post as [|x post IH]; intros pre s' E HP; simpl.
    - rewrite app_nil_r in E. subst. apply HQ; auto.
    - apply wp_bind. eapply wp_mono. { eapply Hstep; eauto. }
      intros s'' Hs''. simpl. apply (IH (pre ++ [x])); auto.
      rewrite <- app_assoc. auto. }
  apply (G l [] s); auto.
Qed.

(** Matrices. *)
Section Mat.
Context {A : Type} {d : Dflt A}.
(** the matrix has r rows of length c (vocabulary of specifications) *)
Definition mat_dims (M : list (list A)) r c :=
  length M = r /\ forall i, i < r -> length (M.[i]) = c.

Lemma mzeros_dims (z : A) r c : mat_dims (mzeros z r c) r c.
Proof.
  split; unfold mzeros. apply repeat_length.
  intros; rewrite at_repeat by auto. apply repeat_length.
Qed.

Lemma mzeros_at r c i j : (mzeros (dflt : A) r c).[i].[j] = dflt.
Proof.
  unfold mzeros. destruct (lt_dec i r).
  - rewrite at_repeat by auto. apply at_repeat_dflt.
  - rewrite (at_over _ i). { unfold at_, dflt at 1, dflt_list. destruct j; reflexivity. }
    rewrite repeat_length; lia.
Qed.

Lemma wp_mrd (M : list (list A)) r c i j (Q : A -> Prop) :
  mat_dims M r c -> i < r -> j < c -> Q (M.[i].[j]) -> wp (mrd M i j) Q.
Proof.
  intros [HL HR] Hi Hj HQ. unfold mrd. apply wp_bind. apply wp_rd. lia.
  apply wp_rd; auto. rewrite HR; auto.
Qed.

Lemma wp_mwr (M : list (list A)) r c i j x (Q : list (list A) -> Prop) :
  mat_dims M r c -> i < r -> j < c ->
  (forall M', mat_dims M' r c -> M'.[i].[j] = x ->
     (forall i' j', i' <> i \/ j' <> j -> M'.[i'].[j'] = M.[i'].[j']) -> Q M') ->
  wp (mwr M i j x) Q.
Proof.
  intros HD Hi Hj HQ. pose proof HD as [HL HR]. unfold mwr.
  apply wp_bind. apply wp_rd. lia.
  apply wp_bind. apply wp_wr. rewrite HR; auto.
  intros r' Hlr' Er' Fr'. simpl.
  apply wp_wr. lia. intros M' HlM' EM' FM'.
  apply HQ.
  - split. lia. intros k Hk. destruct (Nat.eq_dec k i) as [->|Hne].
    + rewrite EM', Hlr'. auto.
    + rewrite FM'; auto.
  - rewrite EM'. auto.
  - intros i' j' Hne. destruct (Nat.eq_dec i' i) as [->|Hne'].
    + rewrite EM'. apply Fr'. lia.
    + rewrite FM'; auto.
Qed.
End Mat.
