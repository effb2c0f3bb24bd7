(** Model of space_mpi/decomp2d: distribute.rs, mod.rs, functions.rs.

    [usize] values inside [distribute] are 64-bit (debug build: overflow
    panics, release build: wraps); the products used as element counts are
    exact (an array of that many elements exists) before the conversion to the
    32-bit [Count]. The zero used to initialise buffers is [dflt]. *)
From Coq Require Import List Arith Lia Bool ZArith.
From Verif Require Import Base Num Cheb NdArray Space MpiSem.
Import ListNotations.

(** ** distribute.rs *)

(** distribute.rs:17-36 [Distribution<N>]; [usize; N] is a list of length N. *)
Record dist := mk_dist {
  d_sz : list nat; d_st : list nat; d_en : list nat;
  sz_procs : list (list nat); st_procs : list (list nat); en_procs : list (list nat);
  d_nprocs : nat; d_nrank : nat; axis_contig : nat }.

(** a fallible map, left to right (vocabulary) *)
Fixpoint mapM {A B} (f : A -> res B) (l : list A) : res (list B) :=
  match l with
  | [] => Ok []
  | a :: l => let* b := f a in let* bs := mapM f l in Ok (b :: bs)
  end.

(** [for (i, j) in rows.iter_mut().zip(vals.iter()) { i[axis] = *j }] *)
Fixpoint zip_set (axis : nat) (rows : list (list nat)) (vals : list nat) : list (list nat) :=
  match rows, vals with
  | r :: rows, v :: vals => upd r axis v :: zip_set axis rows vals
  | rows, [] => rows
  | [], _ => []
  end.

Section Distribution.
Variable bm : bmode.

(** distribute.rs:114-144 [distribute]: (st, en, sz). *)
Definition distribute (n_global nprocs : nat) : res (list Z * list Z * list Z) :=
  assertb (negb (nprocs =? 0)) ;;  (* n_global / nprocs *)
  let size := Z.of_nat (n_global / nprocs) in
  let st := repeat 0%Z nprocs in
  let en := repeat 0%Z nprocs in
  let sz := repeat 0%Z nprocs in
  let* st := wr Checked st 0 0%Z in
  let* sz := wr Checked sz 0 size in
  let* e0 := uminus bm (Ok size) (Ok 1%Z) in
  let* en := wr Checked en 0 e0 in
  let* nu := uminus bm (Ok (Z.of_nat n_global)) (umul bm (Ok size) (Ok (Z.of_nat nprocs))) in
  let* nl := uminus bm (Ok (Z.of_nat nprocs)) (Ok nu) in
  let* (st, en, sz) := for_each (range 1 (Z.to_nat nl)) (fun i '(st, en, sz) =>
      let* i1 := usub i 1 in
      let* s := uadd bm (rd Checked st i1) (Ok size) in
      let* st := wr Checked st i s in
      let* sz := wr Checked sz i size in
      let* e := uadd bm (rd Checked en i1) (Ok size) in
      let* en := wr Checked en i e in
      Ok (st, en, sz)) (st, en, sz) in
  let* size := uadd bm (Ok size) (Ok 1%Z) in
  let* (st, en, sz) := for_each (range (Z.to_nat nl) nprocs) (fun i '(st, en, sz) =>
      let* i1 := usub i 1 in
      let* s := uadd bm (rd Checked en i1) (Ok 1%Z) in
      let* st := wr Checked st i s in
      let* sz := wr Checked sz i size in
      let* e := uadd bm (rd Checked en i1) (Ok size) in
      let* en := wr Checked en i e in
      Ok (st, en, sz)) (st, en, sz) in
  let* last := usub nprocs 1 in
  let* e := uminus bm (Ok (Z.of_nat n_global)) (Ok 1%Z) in
  let* en := wr Checked en last e in
  let* z := uadd bm (uminus bm (rd Checked en last) (rd Checked st last)) (Ok 1%Z) in
  let* sz := wr Checked sz last z in
  Ok (st, en, sz).

(** distribute.rs:51-103 [Distribution::new]. *)
Definition dist_new (n_global : list nat) (nprocs nrank contig : nat) : res dist :=
  assertb (contig <=? 1) ;;
  let N := length n_global in
  let st := repeat (repeat 0 N) nprocs in
  let sz := repeat n_global nprocs in
  let* en := mapM (mapM (fun e => let* z := uminus bm (Ok (Z.of_nat e)) (Ok 1%Z) in Ok (Z.to_nat z))) (repeat n_global nprocs) in
  let* (st, en, sz) := for_each (range 0 N) (fun axis '(st, en, sz) =>
      if axis =? contig then Ok (st, en, sz) else
      let* ng := rd Checked n_global axis in
      let* (st_split, en_split, sz_split) := distribute ng nprocs in
      Ok (zip_set axis st (map Z.to_nat st_split), zip_set axis en (map Z.to_nat en_split),
          zip_set axis sz (map Z.to_nat sz_split))) (st, en, sz) in
  let* st_r := rd Checked st nrank in
  let* en_r := rd Checked en nrank in
  let* sz_r := rd Checked sz nrank in
  Ok (mk_dist sz_r st_r en_r sz st en nprocs nrank contig).

(** distribute.rs:148-150 [length] *)
Definition dlength (d : dist) : nat := size (d_sz d).

(** [acc += x] on i32 *)
Definition iadd (a b : Z) : res Z :=
  let z := (a + b)%Z in
  if ((-2147483648 <=? z) && (z <? 2147483648))%Z then Ok z
  else match bm with Debug => Panic | Release => Ok ((z + 2147483648) mod 4294967296 - 2147483648)%Z end.
(** distribute.rs:176-183, 199-206: [.scan(0, |acc, &x| { let tmp = *acc; *acc += x; Some(tmp) })] *)
Fixpoint scan_displs (acc : Z) (counts : list Z) : res (list Z) :=
  match counts with
  | [] => Ok []
  | x :: counts => let* acc' := iadd acc x in let* ds := scan_displs acc' counts in Ok (acc :: ds)
  end.

(** distribute.rs:170-185 *)
Definition get_counts_all_gather (d : dist) : res (list Z * list Z) :=
  let counts := map (fun x => as_i32 (size x)) (sz_procs d) in
  let* displs := scan_displs 0 counts in
  Ok (counts, displs).

(** distribute.rs:193-208 *)
Definition get_counts_all_to_all (d recv : dist) : res (list Z * list Z) :=
  let* counts := mapM (fun x => let* a := rd Checked x (axis_contig d) in
                                let* b := rd Checked (d_sz d) (axis_contig recv) in
                                Ok (as_i32 (a * b))) (sz_procs recv) in
  let* displs := scan_displs 0 counts in
  Ok (counts, displs).
End Distribution.

(** distribute.rs:154-166, mod.rs:801-813 [check_shape] *)
Definition check_shape {T} (a : arr T) (sh : list nat) : res unit := assertb (list_eqb (shp a) sh).

Section Buffers.
Context {T : Type} {dT : Dflt T}.

(** The elements of the 2-D array with shape [n0; n1] in the order of an
    iterator over the view with swapped axes ([swap_axes(0, 1)]), as positions
    in row-major order. *)
Definition swapped (n0 n1 : nat) : list nat :=
  flat_map (fun j => map (fun i => i * n1 + j) (seq 0 n0)) (seq 0 n1).
(** [view.iter()] / [for (s, m) in view.iter_mut().zip(buf) { *s = *m }] *)
Definition iter_rm (a : arr T) : list T := dat a.
(** [view.swap_axes(0, 1)] then [.iter()]: mod.rs:176-184, 239-249 *)
Definition iter_sw (a : arr T) : list T :=
  map (fun p => (dat a).[p]) (swapped (axlen (shp a) 0) (axlen (shp a) 1)).
(** writing through [view.iter_mut()] *)
Definition store_rm (a : arr T) (buf : list T) : arr T := mk_arr (shp a) (std a) (zip_write (dat a) buf).
(** writing through the iterator of the view with swapped axes *)
Definition store_sw (a : arr T) (buf : list T) : arr T :=
  mk_arr (shp a) (std a)
    (fold_left (fun l '(p, x) => upd l p x) (combine (swapped (axlen (shp a) 0) (axlen (shp a) 1)) buf) (dat a)).

(** distribute.rs:212-233 [split_array], [split_array_inplace]: slicing panics
    unless st <= en + 1 <= extent on both axes (an inclusive range that ends at
    usize::MAX, which only an empty block of a release build has, is not
    modelled).  ndarray's [assign] broadcasts: an extent of 1 of the block is
    repeated along the output's axis, any other mismatch panics. *)
Definition split_array (d : dist) (g : arr T) : res (arr T) :=
  let* s0 := rd Checked (d_st d) 0 in let* e0 := rd Checked (d_en d) 0 in
  let* s1 := rd Checked (d_st d) 1 in let* e1 := rd Checked (d_en d) 1 in
  let* n0 := rd Checked (shp g) 0 in let* n1 := rd Checked (shp g) 1 in
  assertb ((s0 <=? n0) && (S e0 <=? n0) && (s1 <=? n1) && (S e1 <=? n1)) ;;
  Ok (mk_arr [S e0 - s0; S e1 - s1] true
    (flat_map (fun i => map (fun j => (dat g).[i * n1 + j]) (seq s1 (S e1 - s1))) (seq s0 (S e0 - s0)))).
(** space_mpi/decomp2d/distribute.rs:223-233 *)
Definition split_array_inplace (d : dist) (g p : arr T) : res (arr T) :=
  let* s := split_array d g in
  let* l0 := rd Checked (shp s) 0 in let* l1 := rd Checked (shp s) 1 in
  let* m0 := rd Checked (shp p) 0 in let* m1 := rd Checked (shp p) 1 in
  assertb (((l0 =? m0) || (l0 =? 1)) && ((l1 =? m1) || (l1 =? 1))) ;;
  Ok (mk_arr [m0; m1] (std p)
    (flat_map (fun i => map (fun j => (dat s).[(if l0 =? m0 then i else 0) * l1 + (if l1 =? m1 then j else 0)]) (seq 0 m1)) (seq 0 m0))).
End Buffers.

(** ** mod.rs *)

(** mod.rs:56-73 [Decomp2d] (the communicator is the world of [MpiSem]). *)
Record decomp := mk_decomp { dc_nprocs : nat; dc_nrank : nat; n_global : list nat; x_pencil : dist; y_pencil : dist }.

Section Decomp.
Context {T : Type} {dT : Dflt T}.
Variable bm : bmode.

(** mod.rs:83-98 [Decomp2d::new]; [nprocs], [nrank]: size and rank of the world. *)
Definition decomp_new (nprocs nrank : nat) (ng : list nat) : res decomp :=
  let* x := dist_new bm ng nprocs nrank 0 in
  let* y := dist_new bm ng nprocs nrank 1 in
  Ok (mk_decomp nprocs nrank ng x y).

(** mod.rs:122-140 *)
Definition split_array_x_pencil (d : decomp) (g : arr T) : res (arr T) := split_array (x_pencil d) g.
(** space_mpi/decomp2d/mod.rs:134-140 *)
Definition split_array_y_pencil (d : decomp) (g : arr T) : res (arr T) := split_array (y_pencil d) g.

(** rsmpi: the length of a buffer must be an i32; [Partition(Mut)::new] asserts
    that every block lies inside the buffer. *)
Definition count_of (buf : list T) : res Z :=
  assertb (Z.of_nat (length buf) <? 2147483648)%Z ;; Ok (Z.of_nat (length buf)).
(** rsmpi [Partition::new], [PartitionMut::new] (external) *)
Definition partition (buf : list T) (counts displs : list Z) : res unit :=
  let* n := count_of buf in
  assertb (forallb (fun '(c, d) => (c + d <=? n)%Z) (combine counts displs)).

(** [vec![T::zero(); n]] filled from an iterator *)
Definition fill (n : nat) (src : list T) : list T := zip_write (repeat dflt n) src.

(** one call of the communicator: post the request, return the reply *)
Definition call (q : req T) : mprog T (list T) := MCall q (fun r => MRet r).

(** [data[[i, j]] = x] *)
Definition set2 (sh : list nat) (l : list T) (i j : nat) (x : T) : res (list T) :=
  let* n0 := rd Checked sh 0 in let* n1 := rd Checked sh 1 in
  assertb ((i <? n0) && (j <? n1)) ;;
  wr Checked l (i * n1 + j) x.

(** mod.rs:187-203 [merge_xy]: [for j in j1..=j2] *)
Definition merge_xy (d : decomp) (data : arr T) (buf : list T) : res (arr T) :=
  let* (l, pos) := for_each (range 0 (dc_nprocs d)) (fun proc '(l, pos) =>
      let* s := rd Checked (st_procs (x_pencil d)) proc in let* j1 := rd Checked s 1 in
      let* e := rd Checked (en_procs (x_pencil d)) proc in let* j2 := rd Checked e 1 in
      let* ni := rd Checked (d_sz (y_pencil d)) 0 in
      for_each (range 0 ni) (fun i st =>
        for_each (range j1 (S j2)) (fun j '(l, pos) =>
          let* x := rd Checked buf pos in
          let* l := set2 (shp data) l i j x in
          Ok (l, S pos)) st) (l, pos)) (dat data, 0) in
  Ok (mk_arr (shp data) (std data) l).
(** mod.rs:252-268 [merge_yx] *)
Definition merge_yx (d : decomp) (data : arr T) (buf : list T) : res (arr T) :=
  let* (l, pos) := for_each (range 0 (dc_nprocs d)) (fun proc '(l, pos) =>
      let* s := rd Checked (st_procs (y_pencil d)) proc in let* i1 := rd Checked s 0 in
      let* e := rd Checked (en_procs (y_pencil d)) proc in let* i2 := rd Checked e 0 in
      let* nj := rd Checked (d_sz (x_pencil d)) 1 in
      for_each (range 0 nj) (fun j st =>
        for_each (range i1 (S i2)) (fun i '(l, pos) =>
          let* x := rd Checked buf pos in
          let* l := set2 (shp data) l i j x in
          Ok (l, S pos)) st) (l, pos)) (dat data, 0) in
  Ok (mk_arr (shp data) (std data) l).

(** mod.rs:143-173 [transpose_x_to_y], 176-184 [split_xy] *)
Definition transpose_x_to_y (d : decomp) (snd rcv : arr T) : mprog T (arr T) :=
  let^ _ := check_shape snd (d_sz (x_pencil d)) in
  let^ _ := check_shape rcv (d_sz (y_pencil d)) in
  let send := fill (dlength (x_pencil d)) (iter_rm snd) in
  let recv := repeat dflt (dlength (y_pencil d)) in
  let^ (sc, sd) := get_counts_all_to_all bm (x_pencil d) (y_pencil d) in
  let^ (rc, rd) := get_counts_all_to_all bm (y_pencil d) (x_pencil d) in
  let^ _ := partition send sc sd in
  let^ _ := partition recv rc rd in
  let! recv := call (QAllToAllV send sc sd recv rc rd) in
  mlift (merge_xy d rcv recv).
(** mod.rs:206-236 [transpose_y_to_x], 239-249 [split_yx] *)
Definition transpose_y_to_x (d : decomp) (snd rcv : arr T) : mprog T (arr T) :=
  let^ _ := check_shape snd (d_sz (y_pencil d)) in
  let^ _ := check_shape rcv (d_sz (x_pencil d)) in
  let send := fill (dlength (y_pencil d)) (iter_sw snd) in
  let recv := repeat dflt (dlength (x_pencil d)) in
  let^ (sc, sd) := get_counts_all_to_all bm (y_pencil d) (x_pencil d) in
  let^ (rc, rd) := get_counts_all_to_all bm (x_pencil d) (y_pencil d) in
  let^ _ := partition send sc sd in
  let^ _ := partition recv rc rd in
  let! recv := call (QAllToAllV send sc sd recv rc rd) in
  mlift (merge_yx d rcv recv).

(** mod.rs:278-299 [gather_x] (non-root) *)
Definition gather_x (d : decomp) (snd : arr T) : mprog T unit :=
  let^ _ := check_shape snd (d_sz (x_pencil d)) in
  let send := fill (dlength (x_pencil d)) (iter_sw snd) in
  if dc_nrank d =? 0 then MPanic else
  let^ _ := count_of send in
  let! _ := call (QGatherV 0 send) in MRet tt.
(** mod.rs:329-370 [gather_x_inplace_root] *)
Definition gather_x_inplace_root (d : decomp) (snd rcv : arr T) : mprog T (arr T) :=
  let^ _ := check_shape snd (d_sz (x_pencil d)) in
  let send := fill (dlength (x_pencil d)) (iter_sw snd) in
  if dc_nrank d =? 0 then
    let recv := repeat dflt (size (n_global d)) in
    let^ (c, ds) := get_counts_all_gather bm (x_pencil d) in
    let^ _ := partition recv c ds in
    let^ _ := count_of send in
    let! recv := call (QGatherVRoot 0 send recv c ds) in
    let^ _ := check_shape rcv (n_global d) in
    MRet (store_sw rcv recv)
  else MPanic.
(** mod.rs:307-321 [gather_x_root] *)
Definition gather_x_root (d : decomp) (snd : arr T) : mprog T (arr T) :=
  if dc_nrank d =? 0 then gather_x_inplace_root d snd (azeros dflt (n_global d)) else MPanic.

(** mod.rs:380-399 [gather_y] *)
Definition gather_y (d : decomp) (snd : arr T) : mprog T unit :=
  let^ _ := check_shape snd (d_sz (y_pencil d)) in
  let send := fill (dlength (y_pencil d)) (iter_rm snd) in
  if dc_nrank d =? 0 then MPanic else
  let^ _ := count_of send in
  let! _ := call (QGatherV 0 send) in MRet tt.
(** mod.rs:430-466 [gather_y_inplace_root] *)
Definition gather_y_inplace_root (d : decomp) (snd rcv : arr T) : mprog T (arr T) :=
  let^ _ := check_shape snd (d_sz (y_pencil d)) in
  let send := fill (dlength (y_pencil d)) (iter_rm snd) in
  if dc_nrank d =? 0 then
    let recv := repeat dflt (size (n_global d)) in
    let^ (c, ds) := get_counts_all_gather bm (y_pencil d) in
    let^ _ := partition recv c ds in
    let^ _ := count_of send in
    let! recv := call (QGatherVRoot 0 send recv c ds) in
    let^ _ := check_shape rcv (n_global d) in
    MRet (store_rm rcv recv)
  else MPanic.
(** mod.rs:408-422 [gather_y_root] *)
Definition gather_y_root (d : decomp) (snd : arr T) : mprog T (arr T) :=
  if dc_nrank d =? 0 then gather_y_inplace_root d snd (azeros dflt (n_global d)) else MPanic.

(** mod.rs:499-525 [scatter_x_inplace] (non-root) *)
Definition scatter_x_inplace (d : decomp) (rcv : arr T) : mprog T (arr T) :=
  let^ _ := check_shape rcv (d_sz (x_pencil d)) in
  let recv := repeat dflt (dlength (x_pencil d)) in
  if dc_nrank d =? 0 then MPanic else
  let^ _ := count_of recv in
  let! recv := call (QScatterV 0 recv) in
  MRet (store_sw rcv recv).
(** mod.rs:477-489 [scatter_x] *)
Definition scatter_x (d : decomp) : mprog T (arr T) :=
  if dc_nrank d =? 0 then MPanic else scatter_x_inplace d (azeros dflt (d_sz (x_pencil d))).
(** mod.rs:559-602 [scatter_x_inplace_root] *)
Definition scatter_x_inplace_root (d : decomp) (snd rcv : arr T) : mprog T (arr T) :=
  let^ _ := check_shape snd (n_global d) in
  let^ _ := check_shape rcv (d_sz (x_pencil d)) in
  let recv := repeat dflt (dlength (x_pencil d)) in
  if dc_nrank d =? 0 then
    let send := fill (size (n_global d)) (iter_sw snd) in
    let^ (c, ds) := get_counts_all_gather bm (x_pencil d) in
    let^ _ := partition send c ds in
    let^ _ := count_of recv in
    let! recv := call (QScatterVRoot 0 send c ds recv) in
    MRet (store_sw rcv recv)
  else MPanic.
(** mod.rs:536-549 [scatter_x_root] *)
Definition scatter_x_root (d : decomp) (snd : arr T) : mprog T (arr T) :=
  if dc_nrank d =? 0 then scatter_x_inplace_root d snd (azeros dflt (d_sz (x_pencil d))) else MPanic.

(** mod.rs:635-658 [scatter_y_inplace] *)
Definition scatter_y_inplace (d : decomp) (rcv : arr T) : mprog T (arr T) :=
  let^ _ := check_shape rcv (d_sz (y_pencil d)) in
  let recv := repeat dflt (dlength (y_pencil d)) in
  if dc_nrank d =? 0 then MPanic else
  let^ _ := count_of recv in
  let! recv := call (QScatterV 0 recv) in
  MRet (store_rm rcv recv).
(** mod.rs:613-625 [scatter_y] *)
Definition scatter_y (d : decomp) : mprog T (arr T) :=
  if dc_nrank d =? 0 then MPanic else scatter_y_inplace d (azeros dflt (d_sz (y_pencil d))).
(** mod.rs:691-730 [scatter_y_inplace_root] *)
Definition scatter_y_inplace_root (d : decomp) (snd rcv : arr T) : mprog T (arr T) :=
  let^ _ := check_shape snd (n_global d) in
  let^ _ := check_shape rcv (d_sz (y_pencil d)) in
  let recv := repeat dflt (dlength (y_pencil d)) in
  if dc_nrank d =? 0 then
    let send := fill (size (n_global d)) (iter_rm snd) in
    let^ (c, ds) := get_counts_all_gather bm (y_pencil d) in
    let^ _ := partition send c ds in
    let^ _ := count_of recv in
    let! recv := call (QScatterVRoot 0 send c ds recv) in
    MRet (store_rm rcv recv)
  else MPanic.
(** mod.rs:668-681 [scatter_y_root] *)
Definition scatter_y_root (d : decomp) (snd : arr T) : mprog T (arr T) :=
  if dc_nrank d =? 0 then scatter_y_inplace_root d snd (azeros dflt (d_sz (y_pencil d))) else MPanic.

(** mod.rs:733-765 [all_gather_x] *)
Definition all_gather_x (d : decomp) (snd rcv : arr T) : mprog T (arr T) :=
  let^ _ := check_shape snd (d_sz (x_pencil d)) in
  let^ _ := check_shape rcv (n_global d) in
  let send := fill (dlength (x_pencil d)) (iter_sw snd) in
  let recv := repeat dflt (size (n_global d)) in
  let^ (c, ds) := get_counts_all_gather bm (x_pencil d) in
  let^ _ := partition recv c ds in
  let^ _ := count_of send in
  let! recv := call (QAllGatherV send recv c ds) in
  MRet (store_sw rcv recv).
(** mod.rs:768-796 [all_gather_y] *)
Definition all_gather_y (d : decomp) (snd rcv : arr T) : mprog T (arr T) :=
  let^ _ := check_shape snd (d_sz (y_pencil d)) in
  let^ _ := check_shape rcv (n_global d) in
  let send := fill (dlength (y_pencil d)) (iter_rm snd) in
  let recv := repeat dflt (size (n_global d)) in
  let^ (c, ds) := get_counts_all_gather bm (y_pencil d) in
  let^ _ := partition recv c ds in
  let^ _ := count_of send in
  let! recv := call (QAllGatherV send recv c ds) in
  MRet (store_rm rcv recv).
End Decomp.

(** ** functions.rs *)
Section Functions.
Context {T : Type} {dT : Dflt T}.
Variables (add : T -> T -> T) (nprocs me : nat).
(** functions.rs:10-15 *)
Definition broadcast_scalar (data : T) : mprog T T :=
  let! r := call (QBcast 0 data) in
  match r with x :: _ => MRet x | [] => MPanic end.
(** [a.iter().copied().sum()] *)
Definition iter_sum (a : list T) : T := fold_left add a dflt.
(** functions.rs:18-34; [result] is left alone on the other ranks *)
Definition gather_sum (data result : T) : mprog T T :=
  if me =? 0 then
    let! a := call (QGatherRoot 0 data (repeat dflt nprocs)) in MRet (iter_sum a)
  else let! _ := call (QGather 0 data) in MRet result.
(** functions.rs:37-47 *)
Definition all_gather_sum (data : T) : mprog T T :=
  let! a := call (QAllGather data (repeat dflt nprocs)) in MRet (iter_sum a).
End Functions.
