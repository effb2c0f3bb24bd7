(** Stencils: src/chebyshev/stencils.rs and src/chebyshev/stencils/helpers.rs.

    Index subtractions that can underflow for some slice length are written
    [usub] (debug-build semantics: panic).  Unchecked slice accesses use the
    [Unchecked] mode (out of range = [UB]), checked ones [Checked]. *)
From Coq Require Import List Arith ZArith.
From Verif Require Import Base Num Linalg.
Import ListNotations.

Section Stencils.
Context {A T : Type} {N : Num A} {V : Vec A T}.
Notation uget := (rd Unchecked).
Notation cget := (rd Checked).
Notation uset := (st Unchecked).
Notation cset := (st Checked).

(** helpers.rs:14-23 [HelperStencil2Diag] *)
Record st2 := mk_st2 { d2_diag : list A; d2_low2 : list A; d2_tdiag : list A; d2_toff2 : list A }.

(** helpers.rs:30-43 [HelperStencil3Diag] (offsets 0,-1,-2) and
    helpers.rs:50-63 [HelperStencil3Diag2] (offsets 0,-2,-4): the same record,
    lowa/offa = first sub-diagonal, lowb/offb = second. *)
Record st3 := mk_st3 { d3_diag : list A; d3_lowa : list A; d3_lowb : list A;
                       d3_fdiag : list A; d3_foffa : list A; d3_foffb : list A }.

(** [for (i, v) in vec.iter_mut().enumerate() { *v = e(i) }] *)
Definition fill {B} (l : list B) (e : nat -> res B) : res (list B) :=
  for_each (range 0 (length l)) (fun i l => cset l i (e i)) l.

(** helpers.rs:78-89 *)
Definition get_tdma_diagonals (diag low2 : list A) : res (list A * list A) :=
  let m := length diag in
  let tdiag := repeat n0 m in
  let* m2 := usub m 2 in
  let toff2 := repeat n0 m2 in
  let* tdiag := fill tdiag (fun i => cget diag i *! cget diag i +! cget low2 i *! cget low2 i) in
  let* toff2 := fill toff2 (fun i => cget diag (i + 2) *! cget low2 i) in
  Ok (tdiag, toff2).

(** helpers.rs:67-75 *)
Definition st2_new (diag low2 : list A) : res st2 :=
  let* p := get_tdma_diagonals diag low2 in
  Ok (mk_st2 diag low2 (fst p) (snd p)).

(** helpers.rs:92-100.  [zip] of two vectors of the same length m. *)
Definition st2_to_array (s : st2) : res (list (list A)) :=
  let m := length (d2_diag s) in
  for_each (range 0 (Nat.min m (length (d2_low2 s)))) (fun i mat =>
      let* d := cget (d2_diag s) i in
      let* l := cget (d2_low2 s) i in
      let* mat := mwr mat i i d in
      mwr mat (i + 2) i l) (mzeros n0 (m + 2) m).

(** [-A::one() * e / d] *)
Definition negdiv (e d : res A) : res A := lift2 ndiv (lift2 nmul (Ok (nopp n1)) e) d.

(** [pinv[[i, j]] = e] *)
Definition mset (M : list (list A)) (i j : nat) (e : res A) : res (list (list A)) :=
  let* x := e in mwr M i j x.

(** helpers.rs:107-122 *)
Definition st2_pinv (s : st2) : res (list (list A)) :=
  let diag := d2_diag s in
  let low2 := d2_low2 s in
  let m := length diag in
  let n := m + 2 in
  for_each (range 0 m) (fun i pinv =>
      let* pinv := mset pinv i i (Ok n1 /! cget diag i) in
      if 2 <=? i then
        for_each (step_by 2 (rev (range 0 (i - 1)))) (fun j pinv =>
          mset pinv i j (negdiv (mrd pinv i (j + 2) *! cget low2 j) (cget diag j))) pinv
      else Ok pinv) (mzeros n0 m n).

(** helpers.rs:127-149 *)
Definition st2_dot (s : st2) (v u : list T) : res (list T) :=
  let diag := d2_diag s in
  let low2 := d2_low2 s in
  assertb (length v =? length diag) ;;
  let n := length u in
  let* u := uset u 0 (uget v 0 *: uget diag 0) in
  let* u := uset u 1 (uget v 1 *: uget diag 1) in
  let* nm2 := usub n 2 in
  let* u := for_each (range 2 nm2) (fun i u =>
      uset u i (uget v i *: uget diag i +: uget v (i - 2) *: uget low2 (i - 2))) u in
  let* nm4 := usub n 4 in
  let* u := uset u nm2 (uget v nm4 *: uget low2 nm4) in
  let* nm3 := usub n 3 in
  let* nm1 := usub n 1 in
  uset u nm1 (uget v nm3 *: uget low2 nm3).

(** helpers.rs:154-180 *)
Definition st2_solve (s : st2) (u v : list T) : res (list T) :=
  let diag := d2_diag s in
  let low2 := d2_low2 s in
  let* v := for_each (range 0 (length v)) (fun i v =>
      uset v i (uget u i *: uget diag i +: uget u (i + 2) *: uget low2 i)) v in
  tdma Unchecked (d2_toff2 s) (d2_tdiag s) (d2_toff2 s) v.

(** helpers.rs:197-212 *)
Definition get_fdma_diagonals (diag low1 low2 : list A) : res (list A * list A * list A) :=
  let m := length diag in
  let main := repeat n0 m in
  let* m1 := usub m 1 in
  let off1 := repeat n0 m1 in
  let* m2 := usub m 2 in
  let off2 := repeat n0 m2 in
  let* main := fill main (fun i =>
      cget diag i *! cget diag i +! cget low1 i *! cget low1 i +! cget low2 i *! cget low2 i) in
  let* off1 := fill off1 (fun i =>
      cget diag (i + 1) *! cget low1 i +! cget low1 (i + 1) *! cget low2 i) in
  let* off2 := fill off2 (fun i => cget diag (i + 2) *! cget low2 i) in
  Ok (main, off1, off2).

(** helpers.rs:185-195 *)
Definition st3_new (diag low1 low2 : list A) : res st3 :=
  let* p := get_fdma_diagonals diag low1 low2 in
  let '(main, off1, off2) := p in
  Ok (mk_st3 diag low1 low2 main off1 off2).

(** helpers.rs:217-247 *)
Definition st3_dot (s : st3) (v u : list T) : res (list T) :=
  let diag := d3_diag s in
  let low1 := d3_lowa s in
  let low2 := d3_lowb s in
  assertb (length v =? length diag) ;;
  let n := length u in
  let* u := uset u 0 (uget v 0 *: uget diag 0) in
  let* u := uset u 1 (uget v 1 *: uget diag 1 +: uget v 0 *: uget low1 0) in
  let* nm2 := usub n 2 in
  let* u := for_each (range 2 nm2) (fun i u =>
      uset u i (uget v i *: uget diag i +: uget v (i - 1) *: uget low1 (i - 1)
                +: uget v (i - 2) *: uget low2 (i - 2))) u in
  let* nm3 := usub n 3 in
  let* nm4 := usub n 4 in
  let* u := uset u nm2 (uget v nm3 *: uget low1 nm3 +: uget v nm4 *: uget low2 nm4) in
  let* nm1 := usub n 1 in
  uset u nm1 (uget v nm3 *: uget low2 nm3).

(** helpers.rs:252-286 *)
Definition st3_solve (s : st3) (u v : list T) : res (list T) :=
  let diag := d3_diag s in
  let low1 := d3_lowa s in
  let low2 := d3_lowb s in
  let* v := for_each (range 0 (length v)) (fun i v =>
      uset v i (uget u i *: uget diag i +: uget u (i + 1) *: uget low1 i
                +: uget u (i + 2) *: uget low2 i)) v in
  pdma Unchecked (d3_foffb s) (d3_foffa s) (d3_fdiag s) (d3_foffa s) (d3_foffb s) v.

(** helpers.rs:289-304 *)
Definition st3_to_array (s : st3) : res (list (list A)) :=
  let m := length (d3_diag s) in
  for_each (range 0 (Nat.min (Nat.min m (length (d3_lowa s))) (length (d3_lowb s)))) (fun i mat =>
      let* d := cget (d3_diag s) i in
      let* l1 := cget (d3_lowa s) i in
      let* l2 := cget (d3_lowb s) i in
      let* mat := mwr mat i i d in
      let* mat := mwr mat (i + 1) i l1 in
      mwr mat (i + 2) i l2) (mzeros n0 (m + 2) m).

(** helpers.rs:312-333 *)
Definition st3_pinv (s : st3) : res (list (list A)) :=
  let diag := d3_diag s in
  let low1 := d3_lowa s in
  let low2 := d3_lowb s in
  let m := length diag in
  let n := m + 2 in
  for_each (range 0 m) (fun i pinv =>
      let* pinv := mset pinv i i (Ok n1 /! cget diag i) in
      let* pinv := (if 1 <=? i then
          let j := i - 1 in
          mset pinv i j (negdiv (mrd pinv i (j + 1) *! cget low1 j) (cget diag j))
        else Ok pinv) in
      if 2 <=? i then
        for_each (rev (range 0 (i - 1))) (fun j pinv =>
          mset pinv i j (negdiv (mrd pinv i (j + 2) *! cget low2 j
                                 +! mrd pinv i (j + 1) *! cget low1 j) (cget diag j))) pinv
      else Ok pinv) (mzeros n0 m n).

(** helpers.rs:351-366 *)
Definition get_fdma_diagonals2 (diag low2 low4 : list A) : res (list A * list A * list A) :=
  let m := length diag in
  let main := repeat n0 m in
  let* m2 := usub m 2 in
  let off2 := repeat n0 m2 in
  let* m4 := usub m 4 in
  let off4 := repeat n0 m4 in
  let* main := fill main (fun i =>
      cget diag i *! cget diag i +! cget low2 i *! cget low2 i +! cget low4 i *! cget low4 i) in
  let* off2 := fill off2 (fun i =>
      cget diag (i + 2) *! cget low2 i +! cget low2 (i + 2) *! cget low4 i) in
  let* off4 := fill off4 (fun i => cget diag (i + 4) *! cget low4 i) in
  Ok (main, off2, off4).

(** helpers.rs:338-348 *)
Definition st4_new (diag low2 low4 : list A) : res st3 :=
  let* p := get_fdma_diagonals2 diag low2 low4 in
  let '(main, off2, off4) := p in
  Ok (mk_st3 diag low2 low4 main off2 off4).

(** helpers.rs:371-408.  Line 401 reads [low2[n - 6]] where [low2[n - 5]]
    would be expected: modelled as written. *)
Definition st4_dot (s : st3) (v u : list T) : res (list T) :=
  let diag := d3_diag s in
  let low2 := d3_lowa s in
  let low4 := d3_lowb s in
  assertb (length v =? length diag) ;;
  let n := length u in
  let* u := uset u 0 (uget v 0 *: uget diag 0) in
  let* u := uset u 1 (uget v 1 *: uget diag 1) in
  let* u := uset u 2 (uget v 2 *: uget diag 2 +: uget v 0 *: uget low2 0) in
  let* u := uset u 3 (uget v 3 *: uget diag 3 +: uget v 1 *: uget low2 1) in
  let* nm4 := usub n 4 in
  let* u := for_each (range 4 nm4) (fun i u =>
      uset u i (uget v i *: uget diag i +: uget v (i - 2) *: uget low2 (i - 2)
                +: uget v (i - 4) *: uget low4 (i - 4))) u in
  let* nm6 := usub n 6 in
  let* nm8 := usub n 8 in
  let* u := uset u nm4 (uget v nm6 *: uget low2 nm6 +: uget v nm8 *: uget low4 nm8) in
  let* nm5 := usub n 5 in
  let* nm7 := usub n 7 in
  let* nm3 := usub n 3 in
  let* u := uset u nm3 (uget v nm5 *: uget low2 nm6 +: uget v nm7 *: uget low4 nm7) in
  let* nm2 := usub n 2 in
  let* u := uset u nm2 (uget v nm4 *: uget low2 nm4 +: uget v nm6 *: uget low4 nm6) in
  let* nm1 := usub n 1 in
  uset u nm1 (uget v nm3 *: uget low2 nm3 +: uget v nm5 *: uget low4 nm5).

(** helpers.rs:413-447 *)
Definition st4_solve (s : st3) (u v : list T) : res (list T) :=
  let diag := d3_diag s in
  let low2 := d3_lowa s in
  let low4 := d3_lowb s in
  let* v := for_each (range 0 (length v)) (fun i v =>
      uset v i (uget u i *: uget diag i +: uget u (i + 2) *: uget low2 i
                +: uget u (i + 4) *: uget low4 i)) v in
  pdma2 Unchecked (d3_foffb s) (d3_foffa s) (d3_fdiag s) (d3_foffa s) (d3_foffb s) v.

(** helpers.rs:450-465 *)
Definition st4_to_array (s : st3) : res (list (list A)) :=
  let m := length (d3_diag s) in
  for_each (range 0 (Nat.min (Nat.min m (length (d3_lowa s))) (length (d3_lowb s)))) (fun i mat =>
      let* d := cget (d3_diag s) i in
      let* l1 := cget (d3_lowa s) i in
      let* l2 := cget (d3_lowb s) i in
      let* mat := mwr mat i i d in
      let* mat := mwr mat (i + 2) i l1 in
      mwr mat (i + 4) i l2) (mzeros n0 (m + 4) m).

(** helpers.rs:473-494 *)
Definition st4_pinv (s : st3) : res (list (list A)) :=
  let diag := d3_diag s in
  let low2 := d3_lowa s in
  let low4 := d3_lowb s in
  let m := length diag in
  let n := m + 4 in
  for_each (range 0 m) (fun i pinv =>
      let* pinv := mset pinv i i (Ok n1 /! cget diag i) in
      let* pinv := (if 2 <=? i then
          let j := i - 2 in
          mset pinv i j (negdiv (mrd pinv i (j + 2) *! cget low2 j) (cget diag j))
        else Ok pinv) in
      if 4 <=? i then
        for_each (step_by 2 (rev (range 0 (i - 1)))) (fun j pinv =>
          mset pinv i j (negdiv (mrd pinv i (j + 4) *! cget low4 j
                                 +! mrd pinv i (j + 2) *! cget low2 j) (cget diag j))) pinv
      else Ok pinv) (mzeros n0 m n).

(** ** The five stencils (src/chebyshev/stencils.rs) *)

(** stencils.rs:23-29 (the tag of the enum) *)
Inductive skind := KDirichlet | KNeumann | KDirichletNeumann | KBiHarmonicA | KBiHarmonicB.

(** stencils.rs:23-29 *)
Inductive stencil :=
| Dirichlet (h : st2) | Neumann (h : st2) | DirichletNeumann (h : st3)
| BiHarmonicA (h : st3) | BiHarmonicB (h : st3).

(** [get_m]: stencils.rs:89-91, 165-167, 250-252, 329-331, 409-411 *)
Definition get_m (k : skind) (n : nat) : res nat :=
  match k with
  | KDirichlet | KNeumann | KDirichletNeumann => usub n 2
  | KBiHarmonicA | KBiHarmonicB => usub n 4
  end.

Local Notation "a + b" := (nadd a b).
Local Notation "a - b" := (nsub a b).
Local Notation "a * b" := (nmul a b).
Local Notation "a / b" := (ndiv a b).
Local Notation "# k" := (nofZ k%Z) (at level 1).

(** stencils.rs:84 *)
Definition dirichlet_low2 (k : nat) : A := nopp n1.
(** stencils.rs:155-159.  [k.pow(2)] and [(k+2).pow(2)] are 64-bit products in the
    source: exact for n <= 2^32, the bound is not modelled. *)
Definition neumann_low2 (k : nat) : A :=
  nopp n1 * nofN (k * k)%nat / nofN ((k + 2) * (k + 2))%nat.
(** stencils.rs:233-243; [x.powi(2)] is x*x *)
Definition dn_low1 (k : nat) : A :=
  let k_ := nofN k in
  (#(-1) * (k_ * k_) + (k_ + #2) * (k_ + #2)) / ((k_ + #1) * (k_ + #1) + (k_ + #2) * (k_ + #2)).
(** chebyshev/stencils.rs:233-243 *)
Definition dn_low2 (k : nat) : A :=
  let k_ := nofN k in
  (#(-1) * (k_ * k_) - (k_ + #1) * (k_ + #1)) / ((k_ + #1) * (k_ + #1) + (k_ + #2) * (k_ + #2)).
(** stencils.rs:318-322 *)
Definition ba_low2 (k : nat) : A := let k := nofN k in #(-2) * (k + #2) / (k + #3).
(** chebyshev/stencils.rs:318-322 *)
Definition ba_low4 (k : nat) : A := let k := nofN k in (k + #1) / (k + #3).
(** stencils.rs:397-402 *)
Definition bb_low2 (k : nat) : A :=
  let k := nofN k in
  #(-1) * (#2 * (k + #2) * (#15 + #2 * k * (k + #4))) / ((k + #3) * (#19 + #2 * k * (#6 + k))).
(** chebyshev/stencils.rs:397-402 *)
Definition bb_low4 (k : nat) : A :=
  let k := nofN k in
  ((k + #1) * (#3 + #2 * k * (k + #2))) / ((k + #3) * (#19 + #2 * k * (#6 + k))).

(** [new]: stencils.rs:80-86, 151-162, 227-247, 311-326, 390-406 *)
Definition stencil_new (k : skind) (n : nat) : res stencil :=
  let* m := get_m k n in
  let diag := repeat n1 m in
  match k with
  | KDirichlet =>
      let* h := st2_new diag (repeat (nopp n1) m) in Ok (Dirichlet h)
  | KNeumann =>
      let* low2 := fill (repeat n0 m) (fun k => Ok (neumann_low2 k)) in
      let* h := st2_new diag low2 in Ok (Neumann h)
  | KDirichletNeumann =>
      let* low1 := fill (repeat n0 m) (fun k => Ok (dn_low1 k)) in
      let* low2 := fill (repeat n0 m) (fun k => Ok (dn_low2 k)) in
      let* h := st3_new diag low1 low2 in Ok (DirichletNeumann h)
  | KBiHarmonicA =>
      let* low2 := fill (repeat n0 m) (fun k => Ok (ba_low2 k)) in
      let* low4 := fill (repeat n0 m) (fun k => Ok (ba_low4 k)) in
      let* h := st4_new diag low2 low4 in Ok (BiHarmonicA h)
  | KBiHarmonicB =>
      let* low2 := fill (repeat n0 m) (fun k => Ok (bb_low2 k)) in
      let* low4 := fill (repeat n0 m) (fun k => Ok (bb_low4 k)) in
      let* h := st4_new diag low2 low4 in Ok (BiHarmonicB h)
  end.

(** [StencilOperations] dispatch: stencils.rs:94-137, 170-213, 255-298, 334-377, 414-457 *)
Definition stencil_dot (s : stencil) (v u : list T) : res (list T) :=
  match s with
  | Dirichlet h | Neumann h => st2_dot h v u
  | DirichletNeumann h => st3_dot h v u
  | BiHarmonicA h | BiHarmonicB h => st4_dot h v u
  end.

(** chebyshev/stencils.rs:114-129, 190-205, 275-290, 354-369, 434-449 *)
Definition stencil_solve (s : stencil) (u v : list T) : res (list T) :=
  match s with
  | Dirichlet h | Neumann h => st2_solve h u v
  | DirichletNeumann h => st3_solve h u v
  | BiHarmonicA h | BiHarmonicB h => st4_solve h u v
  end.

(** chebyshev/stencils.rs:132-134, 208-210, 293-295, 372-374, 452-454 *)
Definition stencil_to_array (s : stencil) : res (list (list A)) :=
  match s with
  | Dirichlet h | Neumann h => st2_to_array h
  | DirichletNeumann h => st3_to_array h
  | BiHarmonicA h | BiHarmonicB h => st4_to_array h
  end.

(** chebyshev/stencils.rs:137-139, 213-215, 298-300, 377-379, 457-459 *)
Definition stencil_pinv (s : stencil) : res (list (list A)) :=
  match s with
  | Dirichlet h | Neumann h => st2_pinv h
  | DirichletNeumann h => st3_pinv h
  | BiHarmonicA h | BiHarmonicB h => st4_pinv h
  end.
End Stencils.
Arguments st2 : clear implicits.
Arguments st3 : clear implicits.
Arguments stencil : clear implicits.
