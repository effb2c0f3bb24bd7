(** How a kind of base is printed: enums.rs:73-84. *)
From Coq Require Import String.
From Verif Require Import Base Num Stencils Elements.
Local Open Scope string_scope.

(** enums.rs:73-84 [<BaseKind as Display>::fmt]: the text handed to [write!]. The
    first name is spelt as in the source. *)
Definition base_kind_fmt (k : base_kind) : string :=
  match k with
  | BkChebyshev => "Chebyhev"
  | BkChebDirichlet => "ChebDirichlet"
  | BkChebNeumann => "ChebNeumann"
  | BkChebDirichletNeumann => "ChebDirichletNeumann"
  | BkChebBiHarmonicA => "ChebBiHarmonicA"
  | BkChebBiHarmonicB => "ChebBiHarmonicB"
  | BkFourierR2c => "FourierR2c"
  | BkFourierC2c => "FourierC2c"
  end.
