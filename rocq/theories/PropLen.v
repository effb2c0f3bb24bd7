(** C17: slices of the wrong length are refused by every method of the
    orthogonal bases that checks them, in any arithmetic. *)
From Coq Require Import List Arith Lia Bool.
From Verif Require Import Base Num Cheb Fourier FourierProofs.
Import ListNotations.

Section Len.
Context {A : Type} {N : Num A} {Tr : Trig A} {Z0 : EqZ A}.

Theorem C17_chebyshev_wrong_lengths_panic : forall n c (a o : list A), cheb_new n = Ok c ->
  (length a <> n \/ length o <> n -> cheb_forward c a o = Panic /\ cheb_backward c a o = Panic) /\
  (forall (T : Type) (V : Vec A T) (u v : list T) d, length v <> n -> cheb_gradient c u v d = Panic).
Proof.
  intros n c a o Hc. assert (E : c = mk_cheb n n).
  { unfold cheb_new in Hc. destruct (2 <=? n); cbn in Hc; [injection Hc as <-; reflexivity|discriminate]. }
  subst c. split.
  - intros H. unfold cheb_forward, cheb_backward, cheb_len_phys, cheb_len_spec. cbn [c_n c_m].
    destruct (Nat.eqb_spec (length a) n) as [La|La]; cbn [assertb bind]; auto.
    destruct (Nat.eqb_spec (length a) (length o)) as [Lo|Lo]; cbn [assertb bind]; auto. lia.
  - intros T V u v d H. unfold cheb_gradient. cbn [c_n c_m]. destruct (Nat.eqb_spec (length v) n) as [L|L]; cbn [assertb bind]; auto. lia.
Qed.

Theorem C17_r2c_wrong_lengths_panic : forall n f (x : list A) (c : list (cplx A)), r2c_new n = Ok f ->
  (length x <> n \/ length c <> n / 2 + 1 -> r2c_forward f x c = Panic /\ r2c_backward f c x = Panic) /\
  (forall u v d, length u <> n / 2 + 1 \/ length v <> n / 2 + 1 -> r2c_gradient (A := A) f u v d = Panic).
Proof.
  intros n f x c Hf. apply r2c_new_inv in Hf as [Hn ->]. split.
  - intros H. unfold r2c_forward, r2c_backward, r2c_len_phys, r2c_len_spec. cbn [r_n r_m].
    destruct (Nat.eqb_spec (length x) n), (Nat.eqb_spec (length c) (n / 2 + 1)); cbn [assertb bind]; auto. lia.
  - intros u v d H. unfold r2c_gradient, r2c_len_spec. cbn [r_n r_m].
    destruct (Nat.eqb_spec (length v) (length u)), (Nat.eqb_spec (length v) (n / 2 + 1)); cbn [assertb bind]; auto. lia.
Qed.

Theorem C17_c2c_wrong_lengths_panic : forall n f (x c : list (cplx A)), c2c_new n = Ok f -> length x <> n \/ length c <> n ->
  c2c_forward f x c = Panic /\ c2c_backward f c x = Panic /\ (forall d, c2c_gradient (A := A) f x c d = Panic).
Proof.
  intros n f x c Hf H. apply c2c_new_inv in Hf as [Hn ->]. unfold c2c_forward, c2c_backward, c2c_gradient, c2c_len_phys, c2c_len_spec. cbn [cc_n cc_m].
  split; [|split; [|intros d]].
  - destruct (Nat.eqb_spec (length x) n), (Nat.eqb_spec (length c) n); cbn [assertb bind]; auto. lia.
  - destruct (Nat.eqb_spec (length x) n), (Nat.eqb_spec (length c) n); cbn [assertb bind]; auto. lia.
  - destruct (Nat.eqb_spec (length c) (length x)), (Nat.eqb_spec (length c) n); cbn [assertb bind]; auto. lia.
Qed.
End Len.
Print Assumptions C17_chebyshev_wrong_lengths_panic.
Print Assumptions C17_r2c_wrong_lengths_panic.
Print Assumptions C17_c2c_wrong_lengths_panic.

(** a concrete case: 5 points, an output of 6 *)
Example C17_case_c2c : c2c_new 5 = Ok (mk_c2c 5 5) /\ 5 <> 6.
Proof. split; [reflexivity|lia]. Qed.
