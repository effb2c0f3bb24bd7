(** What the distributed layer is supposed to do, independently of how the
    code does it. *)
From Coq Require Import List Arith Lia Bool ZArith.
From Verif Require Import Base NdArray NdArrayFacts AxisFacts.
Import ListNotations.

(** The balanced block partition of n points over p ranks: the first
    p - (n mod p) ranks hold n/p points, the others one more. *)
Definition blk_len (n p r : nat) : nat := n / p + (if p - n mod p <=? r then 1 else 0).
Definition blk_lo (n p r : nat) : nat := r * (n / p) + (r - (p - n mod p)).

Section Pencils.
Context {T : Type} {dT : Dflt T}.
(** [a] is the x-pencil of rank [r]: all of axis 0, the rank's share of axis 1. *)
Definition x_block (n0 n1 p r : nat) (g a : arr T) : Prop :=
  shp a = [n0; blk_len n1 p r] /\ wf a /\
  forall i j, i < n0 -> j < blk_len n1 p r -> get a [i; j] = get g [i; blk_lo n1 p r + j].
(** y-pencil: the rank's share of axis 0, all of axis 1. *)
Definition y_block (n0 n1 p r : nat) (g a : arr T) : Prop :=
  shp a = [blk_len n0 p r; n1] /\ wf a /\
  forall i j, i < blk_len n0 p r -> j < n1 -> get a [i; j] = get g [blk_lo n0 p r + i; j].
(** the array has shape [n0; n1] *)
Definition has_shape (n0 n1 : nat) (a : arr T) : Prop := shp a = [n0; n1] /\ wf a.
End Pencils.

(** ** Arithmetic of the partition *)
Section Blocks.
Variables n p : nat.
Hypothesis Hp : 1 <= p.

Lemma mod_lt : n mod p < p.
Proof. apply Nat.mod_upper_bound. lia. Qed.
Lemma div_eq : n = p * (n / p) + n mod p.
Proof. apply Nat.div_mod. lia. Qed.
Lemma blk_lo_0 : blk_lo n p 0 = 0.
Proof. unfold blk_lo. pose proof mod_lt. cbn. lia. Qed.
Lemma blk_lo_S r : blk_lo n p (S r) = blk_lo n p r + blk_len n p r.
Proof. unfold blk_lo, blk_len. pose proof mod_lt. destruct (Nat.leb_spec (p - n mod p) r); nia. Qed.
Lemma blk_lo_p : blk_lo n p p = n.
Proof. unfold blk_lo. pose proof mod_lt. pose proof div_eq. nia. Qed.
Lemma blk_lo_mono r s : r <= s -> blk_lo n p r <= blk_lo n p s.
Proof. induction 1; auto. rewrite blk_lo_S. lia. Qed.
Lemma blk_end_le r : r < p -> blk_lo n p r + blk_len n p r <= n.
Proof. intros H. rewrite <- blk_lo_S. rewrite <- blk_lo_p at 2. apply blk_lo_mono. lia. Qed.
Lemma blk_len_le r : r < p -> blk_len n p r <= n.
Proof. intros H. pose proof (blk_end_le r H). lia. Qed.
Lemma blk_len_pos r : p <= n -> 1 <= blk_len n p r.
Proof. intros H. unfold blk_len. assert (1 <= n / p). { apply Nat.div_le_lower_bound; lia. } lia. Qed.
(** every point has exactly one owner *)
Lemma blk_owner x : x < n -> exists r, r < p /\ blk_lo n p r <= x < blk_lo n p r + blk_len n p r.
Proof.
  intros Hx.
  assert (H : forall m, m <= p -> x < blk_lo n p m -> exists r, r < m /\ blk_lo n p r <= x < blk_lo n p r + blk_len n p r).
  { induction m as [|m IH]; intros Hm Hl. rewrite blk_lo_0 in Hl. lia.
    rewrite blk_lo_S in Hl. destruct (le_lt_dec (blk_lo n p m) x).
    - exists m. lia.
    - destruct (IH ltac:(lia) l) as (r & H1 & H2). exists r. split; [lia|auto]. }
  destruct (H p (Nat.le_refl _)) as (r & H1 & H2). rewrite blk_lo_p; auto. exists r. auto.
Qed.
Lemma blk_owner_unique x r s : blk_lo n p r <= x < blk_lo n p r + blk_len n p r ->
  blk_lo n p s <= x < blk_lo n p s + blk_len n p s -> r = s.
Proof.
  rewrite <- !blk_lo_S. intros Hr Hs. destruct (lt_eq_lt_dec r s) as [[H|H]|H]; auto.
  - pose proof (blk_lo_mono (S r) s H). lia.
  - pose proof (blk_lo_mono (S s) r H). lia.
Qed.
End Blocks.

(** First index, last index and number of points of each rank's block along an
    axis with n points: contiguous blocks in rank order which cover the axis,
    sizes differ by at most one, every point has exactly one owner. *)
Definition balanced (n p : nat) (st en sz : nat -> nat) : Prop :=
  st 0 = 0 /\ (forall r, r < p -> en r + 1 = st r + sz r) /\ (forall r, S r < p -> st (S r) = en r + 1) /\
  en (p - 1) + 1 = n /\ (forall r s, r < p -> s < p -> sz r <= sz s + 1) /\
  (forall x, x < n -> exists! r, r < p /\ st r <= x <= en r).

Lemma balanced_blk n p : 1 <= p -> p <= n ->
  balanced n p (blk_lo n p) (fun r => blk_lo n p r + blk_len n p r - 1) (blk_len n p).
Proof.
  intros Hp Hn. pose proof (fun r => blk_len_pos n p Hp r Hn) as Pos. split; [|split; [|split; [|split; [|split]]]].
  - apply blk_lo_0; auto.
  - intros r Hr. specialize (Pos r). lia.
  - intros r Hr. rewrite blk_lo_S by auto. specialize (Pos r). lia.
  - pose proof (blk_lo_S n p Hp (p - 1)). replace (S (p - 1)) with p in H by lia. rewrite blk_lo_p in H by auto. specialize (Pos (p - 1)). lia.
  - intros r s _ _. unfold blk_len. destruct (_ <=? r), (_ <=? s); lia.
  - intros x Hx. destruct (blk_owner n p Hp x Hx) as (r & Hr & E). exists r. split.
    + specialize (Pos r). lia.
    + intros s [Hs Es]. apply (blk_owner_unique n p Hp x); auto. specialize (Pos s). lia.
Qed.

(** Every pencil has fewer than 2^31 elements. *)
Definition pencils_fit (n0 n1 p : nat) : Prop :=
  forall r, r < p -> (Z.of_nat (n0 * blk_len n1 p r) < 2147483648)%Z /\ (Z.of_nat (blk_len n0 p r * n1) < 2147483648)%Z.
