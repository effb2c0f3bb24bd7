(** C49: the printed name of a kind of base. *)
From Coq Require Import String List Reals.
From Verif Require Import Base Num Stencils Cheb Compo Fourier Bases Elements PropElements Display.
Import ListNotations.
Local Open Scope string_scope.

(** ** Specification: the names of the kinds in the documentation of lib.rs. *)
Definition documented_name (k : ctor) : string :=
  match k with
  | Chebyshev => "Chebyshev"
  | ChebComposite KDirichlet => "ChebDirichlet"
  | ChebComposite KNeumann => "ChebNeumann"
  | ChebComposite KDirichletNeumann => "ChebDirichletNeumann"
  | ChebComposite KBiHarmonicA => "ChebBiHarmonicA"
  | ChebComposite KBiHarmonicB => "ChebBiHarmonicB"
  | FourierR2c => "FourierR2c"
  | FourierC2c => "FourierC2c"
  end.

(** Every base prints the name of its constructor, except the Chebyshev base, whose
    name is printed without its 's'; and bases that print the same text were made by
    the same constructor. *)
Theorem C49_base_kind_names : forall bm k n (e : elems R), elems_new bm k n = Ok e ->
  (k <> Chebyshev -> base_kind_fmt (e_kind e) = documented_name k) /\
  (k = Chebyshev -> base_kind_fmt (e_kind e) = "Chebyhev" /\ base_kind_fmt (e_kind e) <> documented_name k) /\
  (forall bm' k' n' e', elems_new bm' k' n' = Ok e' -> base_kind_fmt (e_kind (A := R) e') = base_kind_fmt (e_kind e) -> k' = k).
Proof.
  intros bm k n e H. destruct (C49_base_accessors bm k n e H) as (-> & _). split; [|split].
  - intros Hk. destruct k as [|[]| |]; try reflexivity. congruence.
  - intros ->. split; [reflexivity|discriminate].
  - intros bm' k' n' e' H'. destruct (C49_base_accessors bm' k' n' e' H') as (-> & _).
    destruct k as [|[]| |], k' as [|[]| |]; cbn; intros E; try reflexivity; discriminate.
Qed.
Print Assumptions C49_base_kind_names.

(** The eight names are the names of existing bases. *)
Example C49_example_names : forall bm : bmode, exists e5 : elems R, elems_new bm Chebyshev 5 = Ok e5 /\ base_kind_fmt (e_kind e5) = "Chebyhev".
Proof. intros bm. eexists. split; [reflexivity|reflexivity]. Qed.
