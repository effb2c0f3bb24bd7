(** C06, C08: the differentiation matrices of every Chebyshev-type base, through
    the public enum. *)
From Coq Require Import List Arith Lia Bool ZArith Reals Lra.
From Verif Require Import Base Num Linalg LinalgSpec Stencils StencilProofs StencilProofs2 Cheb Compo
  ChebPoly ChebGrad ChebMat ChebDct ChebFacts CompoProofs CompoFacts CompoFacts2 CompoFacts3
  Fourier PropCheb PropCompo NdArray Bases SpaceBases Elements ElemFacts PropElements PropElements2.
Import ListNotations.
Local Open Scope R_scope.

(** the Chebyshev-type bases: the orthogonal one, and the composite ones that
    work (not the two biharmonic ones: C09) *)
Definition cheb_base (k : ctor) (n : nat) (b : base_r2r R) : Prop :=
  match k with
  | Chebyshev => new_chebyshev n = Ok b
  | ChebComposite k => new_composite k n = Ok b
  | _ => False
  end.

(** [b.diffmat(d)] @ [b.to_ortho(x)] = [b.gradient(x, d)]: real or complex coefficients. *)
Theorem C06_base_diffmat_is_gradient :
  forall bm k n b d, cheb_base k n b -> ctor_usable k n -> (3 <= n)%nat -> (1 <= d <= 4)%nat -> (Z.of_nat n <= dsafe bm d)%Z ->
  exists D, r2r_diffmat bm b d = Ok D /\ mat_dims D n n /\
    forall (T : Type) (V : Vec R T) (L : VecR T) (x y z : list T),
      length x = len_spec (r2r_ops b) -> length y = n -> length z = n ->
      exists w g, to_ortho_slice (r2r_ops b) x y = Ok w /\ gradient_slice (r2r_ops b) x z d = Ok g /\ length w = n /\ length g = n /\
        forall i, (i < n)%nat -> g.[i] = vsum n (fun j => vmul w.[j] D.[i].[j]).
Proof.
  intros bm k n b d Hb U H3 Hd Hs.
  pose proof (new_cheb_ok n ltac:(lia)) as Hc.
  pose proof (C06_cheb_diffmat_is_gradient R _ _ bm n _ (repeat 0 n) (repeat 0 n) d Hc H3 Hd Hs (repeat_length _ _) (repeat_length _ _)) as W.
  apply wp_Ok in W as (D & ED & DD & _).
  assert (K : forall T (V : Vec R T) (L : VecR T) (u o : list T), length u = n -> length o = n ->
    exists g, cheb_gradient (mk_cheb n n) u o d = Ok g /\ length g = n /\ forall i, (i < n)%nat -> g.[i] = vsum n (fun j => vmul u.[j] D.[i].[j])).
  { intros T V L u o Hu Ho. pose proof (C06_cheb_diffmat_is_gradient T _ _ bm n _ u o d Hc H3 Hd Hs Hu Ho) as W. rewrite ED in W. cbn [wp] in W.
    destruct W as (_ & W). apply wp_Ok in W as (g & Eg & Lg & Vg). exists g. auto. }
  exists D. destruct k as [|k| |]; cbn [cheb_base] in Hb; try contradiction.
  - apply new_chebyshev_inv in Hb as [Hn ->]. split; [exact ED|]. split; [exact DD|].
    intros T V L x y z Hx Hy Hz. cbn [r2r_ops gradient_slice to_ortho_slice len_spec cheb_len_spec c_m] in *.
    destruct (K T V L x z Hx Hz) as (g & Eg & Lg & Vg). exists x, g. unfold cheb_to_ortho. rewrite zip_write_full by congruence. auto.
  - apply new_composite_inv in Hb as (c & Hcc & ->). destruct U as [Hbi Hsz]. destruct (new_ortho k n c Hcc) as (Eo & El & H4 & Hc').
    cbn [r2r_diffmat]. unfold compo_diffmat. rewrite Eo. split; [exact ED|]. split; [exact DD|].
    cbn [r2r_ops gradient_slice to_ortho_slice len_spec]. rewrite (len_spec_eq k n c Hcc). intros T V L x y z Hx Hy Hz.
    pose proof (to_ortho_ok k n c x y Hcc Hbi Hx Hy) as W1. apply wp_Ok in W1 as (w & Ew & Lw & Vw). rewrite Ew.
    pose proof (to_ortho_ok k n c x (repeat v0 n) Hcc Hbi Hx (repeat_length _ _)) as W1. apply wp_Ok in W1 as (w' & Ew' & Lw' & Vw').
    assert (w' = w) as ->. { apply list_ext; [congruence|]. intros i Hi. rewrite Vw, Vw' by lia. auto. }
    destruct (K T V L w z Lw Hz) as (g & Eg & Lg & Vg). exists w, g. split; auto. split; auto.
    unfold compo_gradient. rewrite El, Ew'. cbn [bind]. rewrite Eo. exact Eg.
Qed.
Print Assumptions C06_base_diffmat_is_gradient.

(** [b.diffmat_pinv(d)] = (P, J): P has d zero rows, its other rows times
    [b.diffmat(d)] are the rows of J, which selects the coefficients from d on. *)
Theorem C08_base_diffmat_pinv : forall bm k n b d, cheb_base k n b -> (2 * d <= n)%nat -> (1 <= d <= 4)%nat -> (Z.of_nat n <= dsafe bm d)%Z ->
  exists D P J, r2r_diffmat bm b d = Ok D /\ r2r_diffmat_pinv bm b d = Ok (P, J) /\
    mat_dims D n n /\ mat_dims P n n /\ mat_dims J (n - d) n /\
    (forall i j, (i < d)%nat -> (j < n)%nat -> P.[i].[j] = 0) /\
    (forall i j, (i < n - d)%nat -> (j < n)%nat -> rsum n (fun l => P.[d + i].[l] * D.[l].[j]) = J.[i].[j]) /\
    (forall i j, (i < n - d)%nat -> (j < n)%nat -> J.[i].[j] = if (d + i =? j)%nat then 1 else 0).
Proof.
  intros bm k n b d Hb H2 Hd Hs.
  assert (G : (2 <= n)%nat -> exists D P J, cheb_diffmat (A := R) bm (mk_cheb n n) d = Ok D /\ cheb_diffmat_pinv (A := R) bm (mk_cheb n n) d = Ok (P, J) /\
    mat_dims D n n /\ mat_dims P n n /\ mat_dims J (n - d) n /\
    (forall i j, (i < d)%nat -> (j < n)%nat -> P.[i].[j] = 0) /\
    (forall i j, (i < n - d)%nat -> (j < n)%nat -> rsum n (fun l => P.[d + i].[l] * D.[l].[j]) = J.[i].[j]) /\
    (forall i j, (i < n - d)%nat -> (j < n)%nat -> J.[i].[j] = if (d + i =? j)%nat then 1 else 0)).
  { intros Hn. pose proof (new_cheb_ok n Hn) as Hc. pose proof (C08_cheb_diffmat_pinv bm n _ d Hc Hd H2 Hs) as W.
    apply wp_Ok in W as (D & ED & W). apply wp_Ok in W as ([P J] & EP & W). exists D, P, J. split; auto. split; auto. split; auto.
    pose proof (C07_diffmat_returns_on_safe_sizes bm n _ d Hc Hd Hs) as W'. rewrite ED in W'. apply W'. }
  destruct k as [|k| |]; cbn [cheb_base] in Hb; try contradiction.
  - apply new_chebyshev_inv in Hb as [Hn ->]. apply G; auto.
  - apply new_composite_inv in Hb as (c & Hcc & ->). destruct (new_ortho k n c Hcc) as (Eo & El & H4 & Hc').
    cbn [r2r_diffmat r2r_diffmat_pinv]. unfold compo_diffmat, compo_diffmat_pinv. rewrite Eo. apply G. lia.
Qed.
Print Assumptions C08_base_diffmat_pinv.

(** witnesses *)
Example C06_base_hyps_met : exists b, cheb_base (ChebComposite KDirichlet) 9 b /\ ctor_usable (ChebComposite KDirichlet) 9 /\ (Z.of_nat 9 <= dsafe Debug 2)%Z.
Proof. eexists. split; [reflexivity|]. split; [|cbn; lia]. split; [reflexivity|cbn; lia]. Qed.
