(** Linalg: the banded solvers of src/chebyshev/linalg/{tdma,pdma,pdma2}.rs.

    Each Rust file contains the same function twice, once with
    [get_unchecked] accesses (tdma, pdma, pdma2) and once with checked
    accesses ([*_checked]); apart from the access syntax the texts are
    identical (checked mechanically).  Here the text is written once and
    parameterised by the access mode [md]: [Unchecked] makes an
    out-of-range access [UB], [Checked] makes it a [Panic].

    Index subtractions ([n - 2], [i - 4], ...) cannot underflow because of the
    asserted lower bound on [n] and the loop ranges, so natural subtraction
    is used; the exceptions are [n - 8] and [n - 7] in pdma2, which sit behind a
    test on the length of l4 only ([isub]). *)
From Coq Require Import List Arith.
From Verif Require Import Base Num.
Import ListNotations.

(** [*v.get_unchecked_mut(i) = e;] / [v[i] = e;] *)
Definition st {A} (md : mode) (l : list A) (i : nat) (e : res A) : res (list A) :=
  let* x := e in wr md l i x.

(** [n - k] as an index of the next access.  On underflow a debug build panics
    here; a release build wraps, and the access fails: panic if it is checked,
    undefined behaviour if it is not.  The worse of the two is taken. *)
Definition isub (md : mode) (n k : nat) : res nat := if k <=? n then Ok (n - k) else oob md.

Section Solvers.
Context {A T : Type} {N : Num A} {V : Vec A T}.
Variable md : mode.

(** src/chebyshev/linalg/tdma.rs:17-69 (unchecked), 80-127 (checked) *)
Definition tdma (l2 d0 u2 : list A) (rhs : list T) : res (list T) :=
  let n := length rhs in
  assertb (2 <? n) ;;
  let w := repeat n0 (n - 2) in
  let g := repeat v0 n in
  (* Forward sweep *)
  let* w := st md w 0 (rd md u2 0 /! rd md d0 0) in
  let* g := st md g 0 (rd md rhs 0 /: rd md d0 0) in
  let* w := (if 1 <? length u2 then st md w 1 (rd md u2 1 /! rd md d0 1) else Ok w) in
  let* g := st md g 1 (rd md rhs 1 /: rd md d0 1) in
  let* w := for_each (range 2 (n - 2)) (fun i w =>
      st md w i (rd md u2 i /! (rd md d0 i -! rd md l2 (i - 2) *! rd md w (i - 2)))) w in
  let* g := for_each (range 2 n) (fun i g =>
      st md g i ((rd md rhs i -: rd md g (i - 2) *: rd md l2 (i - 2))
                 /: (rd md d0 i -! rd md l2 (i - 2) *! rd md w (i - 2)))) g in
  (* Back substitution *)
  let* rhs := st md rhs (n - 1) (rd md g (n - 1)) in
  let* rhs := st md rhs (n - 2) (rd md g (n - 2)) in
  for_each (rev (range 1 (n - 1))) (fun i rhs =>
      st md rhs (i - 1) (rd md g (i - 1) -: rd md rhs (i + 1) *: rd md w (i - 1))) rhs.

(** Working arrays of pdma/pdma2. *)
Record pd_state := mkpd { s_al : list A; s_be : list A; s_ze : list T; s_ga : list A; s_mu : list A }.

(** src/chebyshev/linalg/pdma.rs:19-116 (unchecked), 129-202 (checked) *)
Definition pdma (l2 l1 d0 u1 u2 : list A) (rhs : list T) : res (list T) :=
  let n := length rhs in
  assertb (3 <? n) ;;
  let al := repeat n0 (n - 1) in
  let be := repeat n0 (n - 2) in
  let ze := repeat v0 n in
  let ga := repeat n0 n in
  let mu := repeat n0 n in
  let* mu := st md mu 0 (rd md d0 0) in
  let* al := st md al 0 (rd md u1 0 /! rd md mu 0) in
  let* be := st md be 0 (rd md u2 0 /! rd md mu 0) in
  let* ze := st md ze 0 (rd md rhs 0 /: rd md mu 0) in

  let* ga := st md ga 1 (rd md l1 0) in
  let* mu := st md mu 1 (rd md d0 1 -! rd md al 0 *! rd md ga 1) in
  let* al := st md al 1 ((rd md u1 1 -! rd md be 0 *! rd md ga 1) /! rd md mu 1) in
  let* be := st md be 1 (rd md u2 1 /! rd md mu 1) in
  let* ze := st md ze 1 ((rd md rhs 1 -: rd md ze 0 *: rd md ga 1) /: rd md mu 1) in

  let* s := for_each (range 2 (n - 2)) (fun i s =>
      let 'mkpd al be ze ga mu := s in
      let* ga := st md ga i (rd md l1 (i - 1) -! rd md al (i - 2) *! rd md l2 (i - 2)) in
      let* mu := st md mu i (rd md d0 i -! rd md be (i - 2) *! rd md l2 (i - 2)
                                        -! rd md al (i - 1) *! rd md ga i) in
      let* al := st md al i ((rd md u1 i -! rd md be (i - 1) *! rd md ga i) /! rd md mu i) in
      let* be := st md be i (rd md u2 i /! rd md mu i) in
      let* ze := st md ze i ((rd md rhs i -: rd md ze (i - 2) *: rd md l2 (i - 2)
                                          -: rd md ze (i - 1) *: rd md ga i) /: rd md mu i) in
      Ok (mkpd al be ze ga mu)) (mkpd al be ze ga mu) in
  let 'mkpd al be ze ga mu := s in

  let* ga := st md ga (n - 2) (rd md l1 (n - 3) -! rd md al (n - 4) *! rd md l2 (n - 4)) in
  let* mu := st md mu (n - 2) (rd md d0 (n - 2) -! rd md be (n - 4) *! rd md l2 (n - 4)
                                                -! rd md al (n - 3) *! rd md ga (n - 2)) in
  let* al := st md al (n - 2) ((rd md u1 (n - 2) -! rd md be (n - 3) *! rd md ga (n - 2))
                               /! rd md mu (n - 2)) in
  let* ze := st md ze (n - 2) ((rd md rhs (n - 2) -: rd md ze (n - 4) *: rd md l2 (n - 4)
                                                  -: rd md ze (n - 3) *: rd md ga (n - 2))
                               /: rd md mu (n - 2)) in

  let* ga := st md ga (n - 1) (rd md l1 (n - 2) -! rd md al (n - 3) *! rd md l2 (n - 3)) in
  let* mu := st md mu (n - 1) (rd md d0 (n - 1) -! rd md be (n - 3) *! rd md l2 (n - 3)
                                                -! rd md al (n - 2) *! rd md ga (n - 1)) in
  let* ze := st md ze (n - 1) ((rd md rhs (n - 1) -: rd md ze (n - 3) *: rd md l2 (n - 3)
                                                  -: rd md ze (n - 2) *: rd md ga (n - 1))
                               /: rd md mu (n - 1)) in
  (* Backward substitution *)
  let* rhs := st md rhs (n - 1) (rd md ze (n - 1)) in
  let* rhs := st md rhs (n - 2) (rd md ze (n - 2) -: rd md rhs (n - 1) *: rd md al (n - 2)) in
  for_each (rev (range 0 (n - 2))) (fun i rhs =>
      st md rhs i (rd md ze i -: rd md rhs (i + 1) *: rd md al i
                              -: rd md rhs (i + 2) *: rd md be i)) rhs.

(** pdma2 is split in three consecutive pieces.
    Rows 0..3: src/chebyshev/linalg/pdma2.rs:49-83 *)
Definition pdma2_head (l2 d0 u2 u4 : list A) (rhs : list T)
    (al be : list A) (ze : list T) (ga mu : list A) : res pd_state :=
  let* mu := st md mu 0 (rd md d0 0) in
  let* al := st md al 0 (rd md u2 0 /! rd md mu 0) in
  let* be := st md be 0 (rd md u4 0 /! rd md mu 0) in
  let* ze := st md ze 0 (rd md rhs 0 /: rd md mu 0) in

  let* mu := st md mu 1 (rd md d0 1) in
  let* al := st md al 1 (rd md u2 1 /! rd md mu 1) in
  let* be := st md be 1 (rd md u4 1 /! rd md mu 1) in
  let* ze := st md ze 1 (rd md rhs 1 /: rd md mu 1) in

  let* ga := st md ga 2 (rd md l2 0) in
  let* mu := st md mu 2 (rd md d0 2 -! rd md al 0 *! rd md ga 2) in
  let* al := st md al 2 ((rd md u2 2 -! rd md be 0 *! rd md ga 2) /! rd md mu 2) in
  let* be := (if 2 <? length u4 then st md be 2 (rd md u4 2 /! rd md mu 2) else Ok be) in
  let* ze := st md ze 2 ((rd md rhs 2 -: rd md ze 0 *: rd md ga 2) /: rd md mu 2) in

  let* ga := st md ga 3 (rd md l2 1) in
  let* mu := st md mu 3 (rd md d0 3 -! rd md al 1 *! rd md ga 3) in
  let* al := st md al 3 ((rd md u2 3 -! rd md be 1 *! rd md ga 3) /! rd md mu 3) in
  let* be := (if 3 <? length u4 then st md be 3 (rd md u4 3 /! rd md mu 3) else Ok be) in
  let* ze := st md ze 3 ((rd md rhs 3 -: rd md ze 1 *: rd md ga 3) /: rd md mu 3) in
  Ok (mkpd al be ze ga mu).

(** Rows 4..n-1: src/chebyshev/linalg/pdma2.rs:85-147 *)
Definition pdma2_rows (l4 l2 d0 u2 u4 : list A) (rhs : list T) (s : pd_state) : res pd_state :=
  let n := length rhs in
  let* s := for_each (range 4 (n - 4)) (fun i s =>
      let 'mkpd al be ze ga mu := s in
      let* ga := st md ga i (rd md l2 (i - 2) -! rd md al (i - 4) *! rd md l4 (i - 4)) in
      let* mu := st md mu i (rd md d0 i -! rd md be (i - 4) *! rd md l4 (i - 4)
                                        -! rd md al (i - 2) *! rd md ga i) in
      let* al := st md al i ((rd md u2 i -! rd md be (i - 2) *! rd md ga i) /! rd md mu i) in
      let* be := st md be i (rd md u4 i /! rd md mu i) in
      let* ze := st md ze i ((rd md rhs i -: rd md ze (i - 4) *: rd md l4 (i - 4)
                                          -: rd md ze (i - 2) *: rd md ga i) /: rd md mu i) in
      Ok (mkpd al be ze ga mu)) s in

  let* s := (if 3 <? length l4 then
      let 'mkpd al be ze ga mu := s in
      let* n8 := isub md n 8 in
      let* ga := st md ga (n - 4) (rd md l2 (n - 6) -! rd md al n8 *! rd md l4 n8) in
      let* mu := st md mu (n - 4) (rd md d0 (n - 4) -! rd md be n8 *! rd md l4 n8
                                                    -! rd md al (n - 6) *! rd md ga (n - 4)) in
      let* al := st md al (n - 4) ((rd md u2 (n - 4) -! rd md be (n - 6) *! rd md ga (n - 4))
                                   /! rd md mu (n - 4)) in
      let* ze := st md ze (n - 4) ((rd md rhs (n - 4) -: rd md ze n8 *: rd md l4 n8
                                                      -: rd md ze (n - 6) *: rd md ga (n - 4))
                                   /: rd md mu (n - 4)) in
      Ok (mkpd al be ze ga mu) else Ok s) in

  let* s := (if 2 <? length l4 then
      let 'mkpd al be ze ga mu := s in
      let* n7 := isub md n 7 in
      let* ga := st md ga (n - 3) (rd md l2 (n - 5) -! rd md al n7 *! rd md l4 n7) in
      let* mu := st md mu (n - 3) (rd md d0 (n - 3) -! rd md be n7 *! rd md l4 n7
                                                    -! rd md al (n - 5) *! rd md ga (n - 3)) in
      let* al := st md al (n - 3) ((rd md u2 (n - 3) -! rd md be (n - 5) *! rd md ga (n - 3))
                                   /! rd md mu (n - 3)) in
      let* ze := st md ze (n - 3) ((rd md rhs (n - 3) -: rd md ze n7 *: rd md l4 n7
                                                      -: rd md ze (n - 5) *: rd md ga (n - 3))
                                   /: rd md mu (n - 3)) in
      Ok (mkpd al be ze ga mu) else Ok s) in
  let 'mkpd al be ze ga mu := s in

  let* ga := st md ga (n - 2) (rd md l2 (n - 4) -! rd md al (n - 6) *! rd md l4 (n - 6)) in
  let* mu := st md mu (n - 2) (rd md d0 (n - 2) -! rd md be (n - 6) *! rd md l4 (n - 6)
                                                -! rd md al (n - 4) *! rd md ga (n - 2)) in
  let* ze := st md ze (n - 2) ((rd md rhs (n - 2) -: rd md ze (n - 6) *: rd md l4 (n - 6)
                                                  -: rd md ze (n - 4) *: rd md ga (n - 2))
                               /: rd md mu (n - 2)) in

  let* ga := st md ga (n - 1) (rd md l2 (n - 3) -! rd md al (n - 5) *! rd md l4 (n - 5)) in
  let* mu := st md mu (n - 1) (rd md d0 (n - 1) -! rd md be (n - 5) *! rd md l4 (n - 5)
                                                -! rd md al (n - 3) *! rd md ga (n - 1)) in
  let* ze := st md ze (n - 1) ((rd md rhs (n - 1) -: rd md ze (n - 5) *: rd md l4 (n - 5)
                                                  -: rd md ze (n - 3) *: rd md ga (n - 1))
                               /: rd md mu (n - 1)) in
  Ok (mkpd al be ze ga mu).

(** Backward substitution: src/chebyshev/linalg/pdma2.rs:150-161 *)
Definition pdma2_back (rhs : list T) (s : pd_state) : res (list T) :=
  let n := length rhs in
  let 'mkpd al be ze ga mu := s in
  let* rhs := st md rhs (n - 1) (rd md ze (n - 1)) in
  let* rhs := st md rhs (n - 2) (rd md ze (n - 2)) in
  let* rhs := st md rhs (n - 3) (rd md ze (n - 3) -: rd md rhs (n - 1) *: rd md al (n - 3)) in
  let* rhs := st md rhs (n - 4) (rd md ze (n - 4) -: rd md rhs (n - 2) *: rd md al (n - 4)) in
  for_each (rev (range 0 (n - 4))) (fun i rhs =>
      st md rhs i (rd md ze i -: rd md rhs (i + 2) *: rd md al i
                              -: rd md rhs (i + 4) *: rd md be i)) rhs.

(** src/chebyshev/linalg/pdma2.rs:19-163 (unchecked), 176-287 (checked) *)
Definition pdma2 (l4 l2 d0 u2 u4 : list A) (rhs : list T) : res (list T) :=
  let n := length rhs in
  assertb (5 <? n) ;;
  let al := repeat n0 (n - 2) in
  let be := repeat n0 (n - 4) in
  let ze := repeat v0 n in
  let ga := repeat n0 n in
  let mu := repeat n0 n in
  let* s := pdma2_head l2 d0 u2 u4 rhs al be ze ga mu in
  let* s := pdma2_rows l4 l2 d0 u2 u4 rhs s in
  pdma2_back rhs s.
End Solvers.
