(** Cheb: the orthogonal Chebyshev base, src/chebyshev/ortho.rs. *)
From Coq Require Import List Arith ZArith Reals Bool.
From Verif Require Import Base Num Linalg.
Import ListNotations.

(** sin, cos and pi of the float type (only instantiated at R). *)
Class Trig (A : Type) := { tsin : A -> A; tcos : A -> A; tpi : A }.
(** the real sine, cosine and PI *)
#[export] Instance trig_R : Trig R := {| tsin := sin; tcos := cos; tpi := PI |}.

(** ** 64-bit [usize] arithmetic *)
(** debug build: overflow panics; release build: wraps. *)
Inductive bmode := Debug | Release.
(** 2^64, the modulus of [usize]/[u64] arithmetic *)
Definition u64max : Z := 18446744073709551616%Z.
(** the result of an integer operation: in range, or overflow (semantics of Rust) *)
Definition uwrap (bm : bmode) (z : Z) : res Z :=
  if ((0 <=? z) && (z <? u64max))%Z then Ok z
  else match bm with Debug => Panic | Release => Ok (z mod u64max)%Z end.
(** [a + b] on 64-bit integers *)
Definition uadd bm (a b : res Z) : res Z := let* a := a in let* b := b in uwrap bm (a + b)%Z.
(** [a * b] on 64-bit integers *)
Definition umul bm (a b : res Z) : res Z := let* a := a in let* b := b in uwrap bm (a * b)%Z.
(** [a - b] on 64-bit integers *)
Definition uminus bm (a b : res Z) : res Z := let* a := a in let* b := b in uwrap bm (a - b)%Z.

(** [for (y, x) in out.iter_mut().zip(ins) { *y = x }] *)
Fixpoint zip_write {T} (out ins : list T) : list T :=
  match out, ins with
  | _ :: o, x :: i => x :: zip_write o i
  | o, [] => o
  | [], _ => []
  end.

Section Cheb.
Context {A T : Type} {N : Num A} {V : Vec A T}.
Notation uget := (rd Unchecked).
Notation uset := (st Unchecked).

(** ortho.rs:16-23 (the plan is determined by n) *)
Record cheb := mk_cheb { c_n : nat; c_m : nat }.

(** ortho.rs:39-47.  [plan_dct1(n)] is external; a DCT-I needs at least two
    points, smaller n is modelled as a panic. *)
Definition cheb_new (n : nat) : res cheb :=
  assertb (2 <=? n) ;; Ok (mk_cheb n n).

(** ortho.rs:250-266 *)
Definition cheb_len_phys (c : cheb) : nat := c_n c.
(** chebyshev/ortho.rs:257-259 *)
Definition cheb_len_spec (c : cheb) : nat := c_m c.
(** chebyshev/ortho.rs:262-264 *)
Definition cheb_len_orth (c : cheb) : nat := c_m c.

(** ** Coordinates *)
(** ortho.rs:65-79, 283-285 *)
Definition cheb_nodes {Tr : Trig A} (n : nat) : res (list A) :=
  let* m := usub n 1 in
  let m := nofN m in
  Ok (map (fun k =>
        let arg := ndiv (nmul tpi (nsub m (nmul (nofZ 2%Z) (nofN k)))) (nmul (nofZ 2%Z) m) in
        nmul (nopp n1) (tsin arg)) (seq 0 n)).

(** chebyshev/ortho.rs:282-284 *)
Definition cheb_coords {Tr : Trig A} (c : cheb) : res (list A) := cheb_nodes (cheb_len_phys c).

(** ** Differentiation matrices *)

(** Integer entries (p,q) of ortho.rs:88-133, before the cast to f64; the
    operations are in the order of the source, in 64-bit arithmetic. *)
Section Entries.
Variable bm : bmode.
Notation "a +u b" := (uadd bm a b) (at level 50, left associativity).
Notation "a -u b" := (uminus bm a b) (at level 50, left associativity).
Notation "a *u b" := (umul bm a b) (at level 40, left associativity).
Notation "# k" := (Ok k%Z) (at level 1).

(** ortho.rs:95 *)
Definition dent1 (p q : Z) : res Z := #q *u #2.
(** ortho.rs:103 *)
Definition dent2 (p q : Z) : res Z := #q *u (#q *u #q -u #p *u #p).
(** ortho.rs:109-114 *)
Definition dent3 (p q : Z) : res Z :=
  let* p2 := #p *u #p in
  let* q2 := #q *u #q in
  #q *u (#q2 *u (#q2 -u #2) -u #2 *u #q2 *u #p2 +u #p2 *u #p2 -u #2 *u #p2 +u #1).
(** ortho.rs:120-128 *)
Definition dent4 (p q : Z) : res Z :=
  let* p2 := #p *u #p in
  let* p4 := #p *u #p *u #p *u #p in
  let* q2 := #q *u #q in
  let* q4 := #q *u #q *u #q *u #q in
  #q *u (#q2 *u (#q2 -u #4) *u (#q2 -u #4) +u #3 *u #q2 *u #p4 -u #p2 *u #p4 +u #8 *u #p4
         -u #16 *u #p2 -u #3 *u #q4 *u #p2).
End Entries.

(** The two nested loops of one [deriv] branch of ortho.rs:88-130:
    [for p in 0..n { for q in p+off..n { if (p+q)%2 == par { dmat[[p,q]] = e(p,q) as f64 / den } } }].
    The products of p (and q) computed before the parity test are part of [e]
    here; they cannot fail where [e] does not. The conversion to floating point is exact here. *)
Definition dmat_fill (n off par : nat) (e : Z -> Z -> res Z) (den : A) : res (list (list A)) :=
  for_each (range 0 n) (fun p mat =>
    for_each (range (p + off) n) (fun q mat =>
      if (p + q) mod 2 =? par then
        let* z := e (Z.of_nat p) (Z.of_nat q) in
        mwr mat p q (ndiv (nofZ z) den)
      else Ok mat) mat) (mzeros n0 n n).

(** ortho.rs:88-138.  [s![0, ..]] on an empty matrix panics. *)
Definition dmat (bm : bmode) (n deriv : nat) : res (list (list A)) :=
  let* mat :=
    match deriv with
    | 1 => dmat_fill n 1 1 (dent1 bm) n1
    | 2 => dmat_fill n 2 0 (dent2 bm) n1
    | 3 => dmat_fill n 3 1 (dent3 bm) (nofZ 4%Z)
    | 4 => dmat_fill n 4 0 (dent4 bm) (nofZ 24%Z)
    | _ => Panic
    end in
  let* r0 := rd Checked mat 0 in
  wr Checked mat 0 (map (fun d => nmul d (ndiv n1 (nofZ 2%Z))) r0).

(** ortho.rs:294-297 *)
Definition cheb_diffmat (bm : bmode) (c : cheb) (deriv : nat) : res (list (list A)) :=
  assertb (0 <? deriv) ;; dmat bm (c_n c) deriv.

(** ortho.rs:336-338 *)
Definition cheb_laplacian (bm : bmode) (c : cheb) : res (list (list A)) := cheb_diffmat bm c 2.

(** [for i in lo..hi { let d = ..; pinv[[i, col(i)]] = num / d as f64 }]; [d] is
    computed in 64-bit arithmetic, the conversion to floating point is exact here. *)
Definition pdiag (P : list (list A)) (lo : nat) (hi : Z) (col : nat -> nat) (num : Z) (d : Z -> res Z) : res (list (list A)) :=
  for_each (range lo (Z.to_nat hi)) (fun i P =>
    let* z := d (Z.of_nat i) in mwr P i (col i) (ndiv (nofZ num) (nofZ z))) P.

(** [pinv[[i,j]] *= 2.] *)
Definition mdouble (P : list (list A)) (i j : nat) : res (list (list A)) :=
  let* x := mrd P i j in mwr P i j (nmul x (nofZ 2%Z)).

Section Pinv.
Variable bm : bmode.
Notation "a +u b" := (uadd bm a b) (at level 50, left associativity).
Notation "a -u b" := (uminus bm a b) (at level 50, left associativity).
Notation "a *u b" := (umul bm a b) (at level 40, left associativity).
Notation "# k" := (Ok k%Z) (at level 1).

(** ortho.rs:157-237.  In branch 1 the product [2. * i as f64] is a floating
    point product; in the others it is an integer one.  The loop bounds n-2,
    n-4, .. are 64-bit subtractions; the column numbers i-1, .. i+4 cannot
    overflow in the loops they occur in. *)
Definition pinv (n deriv : nat) : res (list (list A)) :=
  let P := mzeros n0 n n in
  let nz := Z.of_nat n in
  match deriv with
  | 1 =>
      let* P := mwr P 1 0 n1 in
      let* P := for_each (range 2 n) (fun i P => mwr P i (i - 1) (ndiv n1 (nmul (nofZ 2%Z) (nofN i)))) P in
      let* h := #nz -u #2 in
      for_each (range 1 (Z.to_nat h)) (fun i P => mwr P i (i + 1) (ndiv (nofZ (-1)%Z) (nmul (nofZ 2%Z) (nofN i)))) P
  | 2 =>
      let* P := mwr P 2 0 (ndiv n1 (nofZ 4%Z)) in
      let* P := pdiag P 3 nz (fun i => i - 2) 1 (fun i => #4 *u #i *u (#i -u #1)) in
      let* h := #nz -u #2 in
      let* P := pdiag P 2 h (fun i => i) (-1) (fun i => #2 *u (#i *u #i -u #1)) in
      let* h := #nz -u #4 in
      pdiag P 2 h (fun i => i + 2) 1 (fun i => #4 *u #i *u (#i +u #1))
  | 3 =>
      let* P := pdiag P 3 nz (fun i => i - 3) 1 (fun i => #8 *u #i *u (#i -u #1) *u (#i -u #2)) in
      let* P := mdouble P 3 0 in
      let* h := #nz -u #2 in
      let* P := pdiag P 3 h (fun i => i - 1) (-3) (fun i => #8 *u (#i +u #1) *u (#i -u #2) *u #i) in
      let* h := #nz -u #4 in
      let* P := pdiag P 3 h (fun i => i + 1) 3 (fun i => #8 *u (#i -u #1) *u (#i +u #2) *u #i) in
      let* h := #nz -u #6 in
      pdiag P 3 h (fun i => i + 3) (-1) (fun i => #8 *u #i *u (#i +u #1) *u (#i +u #2))
  | 4 =>
      let* P := pdiag P 4 nz (fun i => i - 4) 1 (fun i => #16 *u #i *u (#i -u #1) *u (#i -u #2) *u (#i -u #3)) in
      let* P := mdouble P 4 0 in
      let* h := #nz -u #2 in
      let* P := pdiag P 4 h (fun i => i - 2) (-1) (fun i => #4 *u (#i -u #3) *u (#i -u #1) *u #i *u (#i +u #1)) in
      let* h := #nz -u #4 in
      let* P := pdiag P 4 h (fun i => i) 3 (fun i => #8 *u (#i -u #2) *u (#i -u #1) *u (#i +u #1) *u (#i +u #2)) in
      let* h := #nz -u #6 in
      let* P := pdiag P 4 h (fun i => i + 2) (-1) (fun i => #4 *u (#i -u #1) *u #i *u (#i +u #1) *u (#i +u #3)) in
      let* h := #nz -u #8 in
      pdiag P 4 h (fun i => i + 4) 1 (fun i => #16 *u #i *u (#i +u #1) *u (#i +u #2) *u (#i +u #3))
  | _ => Panic
  end.
End Pinv.

(** [Array2::eye(n)] *)
Definition eye (n : nat) : list (list A) :=
  map (fun i => map (fun j => if i =? j then n1 else n0) (seq 0 n)) (seq 0 n).

(** ortho.rs:244-247.  [slice(s![deriv.., ..])] panics if deriv > n *)
Definition pinv_eye (n deriv : nat) : res (list (list A)) :=
  assertb (deriv <=? n) ;; Ok (skipn deriv (eye n)).

(** ortho.rs:310-313 *)
Definition cheb_diffmat_pinv (bm : bmode) (c : cheb) (deriv : nat) : res (list (list A) * list (list A)) :=
  assertb (0 <? deriv) ;;
  let* P := pinv bm (c_n c) deriv in
  let* E := pinv_eye (c_n c) deriv in
  Ok (P, E).

(** ortho.rs:348-350 *)
Definition cheb_laplacian_pinv (bm : bmode) (c : cheb) := cheb_diffmat_pinv bm c 2.

(** ortho.rs:321-328 *)
Definition cheb_stencil (c : cheb) : list (list A) := eye (c_m c).
(** chebyshev/ortho.rs:326-328 *)
Definition cheb_stencil_inv (c : cheb) : list (list A) := eye (c_m c).

(** ** Conversions and derivative *)
(** ortho.rs:359-363, 366-370 *)
Definition cheb_to_ortho (c : cheb) (indata outdata : list T) : res (list T) :=
  Ok (zip_write outdata indata).
(** chebyshev/ortho.rs:366-370 *)
Definition cheb_from_ortho (c : cheb) (indata outdata : list T) : res (list T) :=
  Ok (zip_write outdata indata).

(** One differentiation: ortho.rs:404-421.  [two * T::from_usize(i+1) * x] and
    [x / two] are multiplication/division of x by a real scalar. *)
Definition grad_once (m : nat) (out : list T) : res (list T) :=
  let two := nadd n1 n1 in
  let* out := uset out 0 (uget out 1) in
  let* m1 := usub m 1 in
  let* out := for_each (range 1 m1) (fun i out =>
      uset out i (let* x := uget out (i + 1) in Ok (vmul x (nmul two (nofN (i + 1)))))) out in
  let* out := uset out m1 (Ok v0) in
  let* m2 := usub m 2 in
  let* out := for_each (rev (range 1 m2)) (fun i out =>
      uset out i (uget out i +: uget out (i + 2))) out in
  uset out 0 (uget out 0 +: (let* x := uget out 2 in Ok (vdiv x two))).

(** ortho.rs:397-423 *)
Definition cheb_gradient (c : cheb) (indata outdata : list T) (n_times : nat) : res (list T) :=
  assertb (length outdata =? c_m c) ;;
  for_each (range 0 n_times) (fun _ out => grad_once (c_m c) out) (zip_write outdata indata).
End Cheb.

Section Transform.
Context {A : Type} {N : Num A} {Tr : Trig A}.

(** rustdct [Dct1::process_dct1] (external), by its documented formula:
    X_k = x_0/2 + sum_{j=1}^{N-2} x_j cos(pi j k/(N-1)) + (-1)^k x_{N-1}/2
    (written with cos(pi k) for the sign); panics if the buffer does not have
    the planned length. *)
Definition dct1_coef (n j k : nat) : A :=
  let c := tcos (ndiv (nmul tpi (nofN (j * k))) (nofN (n - 1))) in
  if (j =? 0) || (j =? n - 1) then ndiv c (nofZ 2%Z) else c.
(** the sum above for every k *)
Definition dct1 (n : nat) (x : list A) : list A :=
  map (fun k => vsum (V := vec_self) n (fun j => nmul x.[j] (dct1_coef n j k))) (seq 0 n).
(** the call of [process_dct1], ortho.rs:445 and 470 *)
Definition process_dct1 (n : nat) (x : list A) : res (list A) :=
  assertb (length x =? n) ;; Ok (dct1 n x).

(** [x[i] *= e] (checked index) *)
Definition scale_at (x : list A) (i : nat) (e : A) : res (list A) :=
  st Checked x i (let* y := rd Checked x i in Ok (nmul y e)).

(** ortho.rs:431-450 *)
Definition cheb_forward (c : cheb) (indata outdata : list A) : res (list A) :=
  assertb (length indata =? cheb_len_phys c) ;;
  assertb (length indata =? length outdata) ;;
  let* nm1 := usub (c_n c) 1 in
  let cor := ndiv (nmul (nadd n1 n1) n1) (nofN nm1) in
  let out := zip_write outdata (map (fun x => nmul x cor) (rev indata)) in
  let* out := process_dct1 (c_n c) out in
  let half := ndiv n1 (nofZ 2%Z) in
  let* out := scale_at out 0 half in
  scale_at out nm1 half.

(** ortho.rs:452-473 *)
Definition cheb_backward (c : cheb) (indata outdata : list A) : res (list A) :=
  assertb (length indata =? cheb_len_spec c) ;;
  assertb (length indata =? length outdata) ;;
  let two := nadd n1 n1 in
  let out := zip_write outdata
    (map (fun ix : nat * A => if fst ix mod 2 =? 0 then snd ix else nmul (snd ix) (nopp n1))
         (combine (seq 0 (length indata)) indata)) in
  let* out := scale_at out 0 two in
  let* mm1 := usub (c_m c) 1 in
  let* out := scale_at out mm1 two in
  process_dct1 (c_n c) out.
End Transform.
