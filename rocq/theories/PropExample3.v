(** C61, continued: what the assertion of the example programs compares (space_mpi.rs:49, space_complex_mpi.rs:49). *)
From Coq Require Import List Arith Lia Bool.
From Verif Require Import Base NdArray Examples.
Import ListNotations.

Lemma all_eq_iff {P} (eqP : P -> P -> bool) : (forall x y, eqP x y = true <-> x = y) -> forall a b, all_eq eqP a b = true <-> a = b.
Proof.
  intros H. induction a as [|x a IH]; intros [|y b]; cbn; try (split; congruence). rewrite andb_true_iff, H, IH. split. intros [-> ->]; auto. intros [= -> ->]; auto.
Qed.
Lemma list_eqb_iff : forall a b, list_eqb a b = true <-> a = b.
Proof.
  induction a as [|x a IH]; intros [|y b]; cbn; try (split; congruence). rewrite andb_true_iff, Nat.eqb_eq, IH. split. intros [-> ->]; auto. intros [= -> ->]; auto.
Qed.
(** With an equality test that decides equality of the elements, the assertion passes
    exactly on arrays of the same shape with the same elements. *)
Theorem C61_the_assertion_compares_shape_and_elements : forall P (eqP : P -> P -> bool), (forall x y, eqP x y = true <-> x = y) ->
  forall a b : arr P, assertb (arr_eq eqP a b) = Ok tt <-> shp a = shp b /\ dat a = dat b.
Proof.
  intros P eqP H a b. assert (E : arr_eq eqP a b = true <-> shp a = shp b /\ dat a = dat b).
  { unfold arr_eq. rewrite andb_true_iff, list_eqb_iff, (all_eq_iff eqP H). reflexivity. }
  rewrite <- E. destruct (arr_eq eqP a b); cbn; split; congruence.
Qed.
Print Assumptions C61_the_assertion_compares_shape_and_elements.
Example assertion_case : assertb (arr_eq Nat.eqb (mk_arr [2; 3] true [0; 1; 2; 3; 4; 5]) (mk_arr [3; 2] true [0; 1; 2; 3; 4; 5])) = Panic.
Proof. reflexivity. Qed.
