(** Num: the scalars of the crate.

    Models the trait bounds of src/types.rs:1-58 ([FloatNum], [ScalarNum]) and the
    `T: Mul<A> + Div<A> + Add + Sub + Zero` bounds used all over the crate:
    [Num A] is the real element type (f32/f64), [Vec A T] an element type [T]
    (either [A] itself or [Complex<A>]) that can be scaled by [A].
    No laws are part of these records: they can be instantiated with exact
    reals (for the theorems) or rationals (for running the model). *)
From Coq Require Import List Bool ZArith QArith Reals Lra Arith Lia.
From Verif Require Import Base.
Import ListNotations.
Local Close Scope Q_scope.
Local Open Scope nat_scope.

(** the arithmetic of [A: FloatNum] (types.rs), abstract: instantiated at the reals, f64 and f32 *)
Class Num (A : Type) := {
  n0 : A; n1 : A;
  nadd : A -> A -> A; nsub : A -> A -> A; nmul : A -> A -> A; ndiv : A -> A -> A;
  nopp : A -> A;
  nofZ : Z -> A
}.

(** elements of type T that can be added and scaled by numbers of type A: T is A or Complex<A> (types.rs [ScalarNum]) *)
Class Vec (A T : Type) := {
  v0 : T;
  vadd : T -> T -> T; vsub : T -> T -> T;
  vmul : T -> A -> T; vdiv : T -> A -> T
}.

(** the default entry is 0 *)
#[export] Instance dflt_num {A} {N : Num A} : Dflt A | 0 := @n0 A N.
(** the default entry is 0 *)
#[export] Instance dflt_vec {A T} {V : Vec A T} : Dflt T | 10 := @v0 A T V.

Arguments dflt_num : simpl never.
Arguments dflt_vec : simpl never.

(** [A::from_usize]/[from_f64(k as f64)] *)
Definition nofN {A} {N : Num A} (k : nat) : A := nofZ (Z.of_nat k).

(** T = A *)
#[export] Instance vec_self {A} {N : Num A} : Vec A A | 0 :=
  {| v0 := n0; vadd := nadd; vsub := nsub; vmul := nmul; vdiv := ndiv |}.

(** num_complex::Complex<A> *)
Definition cplx (A : Type) : Type := (A * A)%type.
(** T = Complex<A>; num_complex multiplies and divides by a real number componentwise *)
#[export] Instance vec_cplx {A} {N : Num A} : Vec A (cplx A) | 1 :=
  {| v0 := (n0, n0);
     vadd x y := (nadd (fst x) (fst y), nadd (snd x) (snd y));
     vsub x y := (nsub (fst x) (fst y), nsub (snd x) (snd y));
     vmul x a := (nmul (fst x) a, nmul (snd x) a);
     vdiv x a := (ndiv (fst x) a, ndiv (snd x) a) |}.

(** the real numbers, exact arithmetic *)
#[export] Instance num_R : Num R :=
  {| n0 := 0%R; n1 := 1%R; nadd := Rplus; nsub := Rminus; nmul := Rmult; ndiv := Rdiv;
     nopp := Ropp; nofZ := IZR |}.

(** Rationals, kept reduced so that runs stay small. *)
#[export] Instance num_Q : Num Q :=
  {| n0 := 0%Q; n1 := 1%Q;
     nadd x y := Qred (x + y); nsub x y := Qred (x - y); nmul x y := Qred (x * y);
     ndiv x y := Qred (x / y); nopp x := Qred (- x); nofZ z := inject_Z z |}.

(** Lifted operators: expressions whose operands are slice reads. *)
Declare Scope rs_scope.
Delimit Scope rs_scope with rs.
Notation "a +! b" := (lift2 nadd a b) (at level 50, left associativity).
Notation "a -! b" := (lift2 nsub a b) (at level 50, left associativity).
Notation "a *! b" := (lift2 nmul a b) (at level 40, left associativity).
Notation "a /! b" := (lift2 ndiv a b) (at level 40, left associativity).
Notation "a +: b" := (lift2 vadd a b) (at level 50, left associativity).
Notation "a -: b" := (lift2 vsub a b) (at level 50, left associativity).
Notation "a *: b" := (lift2 vmul a b) (at level 40, left associativity).
Notation "a /: b" := (lift2 vdiv a b) (at level 40, left associativity).

(** ** Laws, used by the theorems only *)

(** A real vector space with coordinates. *)
Class VecR (T : Type) {V : Vec R T} := {
  vI : Type;
  vproj : vI -> T -> R;
  vproj_0 : forall p, vproj p v0 = 0%R;
  vproj_add : forall p x y, vproj p (vadd x y) = (vproj p x + vproj p y)%R;
  vproj_sub : forall p x y, vproj p (vsub x y) = (vproj p x - vproj p y)%R;
  vproj_mul : forall p x a, vproj p (vmul x a) = (vproj p x * a)%R;
  vproj_div : forall p x a, vproj p (vdiv x a) = (vproj p x / a)%R;
  vext : forall x y, (forall p, vproj p x = vproj p y) -> x = y
}.

(** T = R *)
#[export] Instance vecR_R : @VecR R vec_self.
Proof.
  refine {| vI := unit; vproj := fun _ x => x |}; simpl; intros; auto. exact (H tt).
Defined.

(** T = complex numbers with real parts *)
#[export] Instance vecR_C : @VecR (cplx R) vec_cplx.
Proof.
  refine {| vI := bool; vproj := fun (b : bool) (x : cplx R) => if b then fst x else snd x |};
    simpl; intros; try (destruct p; reflexivity).
  destruct x, y. pose proof (H true). pose proof (H false). simpl in *. congruence.
Defined.

(** ** Finite sums *)
Fixpoint vsum {A T} {V : Vec A T} (n : nat) (f : nat -> T) : T :=
  match n with 0 => v0 | S k => vadd (vsum k f) (f k) end.

(** f 0 + ... + f (n-1) on the reals (vocabulary of specifications) *)
Fixpoint rsum (n : nat) (f : nat -> R) : R :=
  match n with 0 => 0%R | S k => (rsum k f + f k)%R end.

Local Open Scope R_scope.

Lemma vproj_vsum {T} {V : Vec R T} {L : VecR T} p n (f : nat -> T) :
  vproj p (vsum n f) = rsum n (fun k => vproj p (f k)).
Proof. induction n; simpl. apply vproj_0. rewrite vproj_add, IHn. auto. Qed.

Lemma vsum_rsum n f : vsum (V := vec_self) n f = rsum n f.
Proof. induction n; simpl; auto. rewrite IHn. auto. Qed.

Lemma rsum_ext n f g : (forall k, (k < n)%nat -> f k = g k) -> rsum n f = rsum n g.
Proof. induction n; simpl; intros; auto. rewrite IHn, H; auto. Qed.

Lemma vsum_ext {A T} {V : Vec A T} n (f g : nat -> T) :
  (forall k, (k < n)%nat -> f k = g k) -> vsum n f = vsum n g.
Proof. induction n; simpl; intros; auto. rewrite IHn, H; auto. Qed.

Lemma rsum_0 n f : (forall k, (k < n)%nat -> f k = 0) -> rsum n f = 0.
Proof. induction n; simpl; intros; auto. rewrite IHn, H; auto. ring. Qed.

Lemma rsum_add n f g : rsum n (fun k => f k + g k) = rsum n f + rsum n g.
Proof. induction n; simpl. ring. rewrite IHn. ring. Qed.
Lemma rsum_sub n f g : rsum n (fun k => f k - g k) = rsum n f - rsum n g.
Proof. induction n; simpl. ring. rewrite IHn. ring. Qed.
Lemma rsum_scal_l n c f : rsum n (fun k => c * f k) = c * rsum n f.
Proof. induction n; simpl. ring. rewrite IHn. ring. Qed.
Lemma rsum_scal_r n c f : rsum n (fun k => f k * c) = rsum n f * c.
Proof. induction n; simpl. ring. rewrite IHn. ring. Qed.
Lemma rsum_opp n f : rsum n (fun k => - f k) = - rsum n f.
Proof. induction n; simpl. ring. rewrite IHn. ring. Qed.

Lemma rsum_const n c : rsum n (fun _ => c) = INR n * c.
Proof. induction n; [simpl; ring|]. rewrite S_INR; simpl. rewrite IHn. ring. Qed.

Lemma rsum_split n m f : rsum (n + m) f = rsum n f + rsum m (fun k => f (n + k)%nat).
Proof.
  induction m; simpl.
  - rewrite Nat.add_0_r. ring.
  - rewrite Nat.add_succ_r. simpl. rewrite IHm. ring.
Qed.

Lemma rsum_first n f : rsum (S n) f = f 0%nat + rsum n (fun k => f (S k)).
Proof. induction n; simpl in *. ring. rewrite IHn. ring. Qed.

Lemma rsum_rev n f : rsum n f = rsum n (fun k => f (n - 1 - k)%nat).
Proof.
  revert f; induction n; intros; auto.
  rewrite rsum_first. simpl rsum at 2.
  replace (n - 0 - n)%nat with 0%nat by lia.
  rewrite (IHn (fun k => f (S k))). rewrite Rplus_comm. f_equal.
  apply rsum_ext. intros. f_equal. lia.
Qed.

Lemma rsum_swap n m (f : nat -> nat -> R) :
  rsum n (fun i => rsum m (fun j => f i j)) = rsum m (fun j => rsum n (fun i => f i j)).
Proof.
  induction n; simpl.
  - symmetry; apply rsum_0; auto.
  - rewrite IHn. rewrite <- rsum_add. auto.
Qed.

(** A sum whose only non-zero term is at [i]. *)
Lemma rsum_delta n i f :
  (i < n)%nat -> (forall k, (k < n)%nat -> k <> i -> f k = 0) -> rsum n f = f i.
Proof.
  revert i. induction n; intros; [lia|]. simpl.
  destruct (Nat.eq_dec i n) as [->|].
  - rewrite rsum_0. ring. intros; apply H0; lia.
  - rewrite (IHn i); try lia. rewrite (H0 n) by lia. ring. intros; apply H0; lia.
Qed.

Lemma rsum_ind n i (c : R) :
  rsum n (fun k => if Nat.eqb k i then c else 0) = if Nat.ltb i n then c else 0.
Proof.
  destruct (Nat.ltb_spec i n).
  - rewrite (rsum_delta n i); auto. rewrite Nat.eqb_refl; auto.
    intros. apply Nat.eqb_neq in H1. rewrite H1; auto.
  - apply rsum_0. intros. destruct (Nat.eqb_spec k i); auto; lia.
Qed.

Lemma rsum_ind_mul n i (f : nat -> R) :
  rsum n (fun k => f k * (if Nat.eqb k i then 1 else 0)) = if Nat.ltb i n then f i else 0.
Proof.
  rewrite <- (rsum_ind n i (f i)). apply rsum_ext. intros.
  destruct (Nat.eqb_spec k i); subst; ring.
Qed.

Lemma rsum_pos n f : (forall k, (k < n)%nat -> 0 <= f k) -> 0 <= rsum n f.
Proof.
  induction n; simpl; intros. lra. pose proof (H n ltac:(lia)).
  assert (0 <= rsum n f) by (apply IHn; intros; apply H; lia). lra.
Qed.

(** Solve an equation in T by passing to coordinates. *)
Ltac vcoord :=
  apply vext; let p := fresh "p" in intros p;
  repeat rewrite ?vproj_0, ?vproj_add, ?vproj_sub, ?vproj_mul, ?vproj_div, ?vproj_vsum.

(** Reduce the generic operations at R. *)
Ltac numR :=
  cbn [n0 n1 nadd nsub nmul ndiv nopp nofZ num_R] in *;
  unfold nofN in *; cbn [nofZ num_R] in *;
  change (@dflt R dflt_num) with 0%R in *.

Lemma dflt_R : @dflt R dflt_num = 0. Proof. reflexivity. Qed.
