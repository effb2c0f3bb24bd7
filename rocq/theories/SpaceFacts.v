(** Composing axis-wise operations: the generic part of the proofs about
    Space1/Space2/Space3. *)
From Coq Require Import List Arith Lia Bool ZArith Reals Lra Permutation.
From Verif Require Import Base Num NdArray NdArrayFacts AxisFacts Bases BaseLin LibBase AxisProps PropAxis.
Import ListNotations.
Local Open Scope nat_scope.

(** [b] is [a] with the 1-D operation [f] (output length l2) applied to every
    line along axis [ax]; the buffer the operation starts from is irrelevant. *)
Definition axis_op {T1 T2} {d1 : Dflt T1} {d2 : Dflt T2} (f : list T1 -> list T2 -> res (list T2)) (l2 ax : nat)
    (a : arr T1) (b : arr T2) : Prop :=
  shp b = upd (shp a) ax l2 /\ std b = true /\ wf b /\
  forall pre post, length pre = ax -> valid (rm_axis (shp a) ax) (pre ++ post) ->
    forall y, length y = l2 -> f (line a pre post) y = Ok (line b pre post).

(** The allocating method built on a slice operation. *)
Definition axop {T1 T2} {d1 : Dflt T1} {d2 : Dflt T2} (f : list T1 -> list T2 -> res (list T2)) (l1 l2 : nat)
    (zo : zip_order) (a : arr T1) (ax : nat) : res (arr T2) :=
  let* o := array_resized_axis dflt a l2 ax in apply_along_axis dflt f l1 l2 (zo (shp a) (shp o) ax) a o ax.

Definition option_eq_dec (x y : option nat) : {x = y} + {x <> y}.
Proof. decide equality. apply Nat.eq_dec. Defined.
Lemma upd_idem {X} (l : list X) i x y : upd (upd l i x) i y = upd l i y.
Proof. revert i; induction l as [|a l IH]; intros [|i]; cbn; auto. f_equal; auto. Qed.
Lemma upd_self (sh : list nat) i n : nth_error sh i = Some n -> upd sh i n = sh.
Proof. revert i; induction sh as [|a l IH]; intros [|i] H; cbn in *; try discriminate. congruence. f_equal; auto. Qed.
Lemma upd_comm {X} (l : list X) i j x y : i <> j -> upd (upd l i x) j y = upd (upd l j y) i x.
Proof. revert i j; induction l as [|a l IH]; intros [|i] [|j] H; cbn; auto; try lia. f_equal; auto. Qed.
Lemma nth_error_upd_other (sh : list nat) i j (n : nat) : i <> j -> nth_error (upd sh i n) j = nth_error sh j.
Proof. revert i j; induction sh as [|a l IH]; intros [|i] [|j] H; cbn; auto; try lia. Qed.
Lemma axlen_upd sh ax n : ax < length sh -> axlen (upd sh ax n) ax = n.
Proof. intros H. apply (proj2 (nth_error_axlen _ _ _ (nth_error_upd_same sh ax n H))). Qed.

Section Ops.
Context {T1 T2 : Type} {V1 : Vec R T1} {V2 : Vec R T2} {d1 : Dflt T1} {d2 : Dflt T2}.
Implicit Type f : list T1 -> list T2 -> res (list T2).

Lemma axis_op_lanes f l2 ax (a : arr T1) (b : arr T2) : ax < length (shp a) -> axis_op f l2 ax a b ->
  forall j, j < nlanes (shp a) ax -> forall y, length y = l2 ->
  f (lane (shp a) ax (dat a) j) y = Ok (lane (shp b) ax (dat b) j).
Proof.
  intros Ha (Sb & _ & _ & H) j Hj y Hy. destruct (lane_idx (shp a) ax j Ha Hj) as (pre & post & Hp & Hv & Er).
  specialize (H pre post Hp Hv y Hy). subst ax. rewrite line_lane, line_lane in H; auto.
  - rewrite Sb, rm_axis_upd, Er in H. rewrite Sb. auto.
  - rewrite Sb, upd_length; auto.
  - rewrite Sb, rm_axis_upd; auto.
Qed.

Lemma axis_op_det f l2 ax a b b' : ax < length (shp a) -> axis_op f l2 ax a b -> axis_op f l2 ax a b' -> b = b'.
Proof.
  intros Ha H H'. destruct H as (S & St & W & H), H' as (S' & St' & W' & H').
  apply (C25_lines_determine_array T2 d2 b b' ax); try congruence; auto. rewrite S, upd_length; auto.
  intros pre post Hp Hv. rewrite S, rm_axis_upd in Hv.
  specialize (H pre post Hp Hv (repeat dflt l2) (repeat_length _ _)).
  specialize (H' pre post Hp Hv (repeat dflt l2) (repeat_length _ _)). congruence.
Qed.

Lemma axis_op_ext f f' l1 l2 ax a b : (forall x y, length x = l1 -> length y = l2 -> f x y = f' x y) ->
  nth_error (shp a) ax = Some l1 -> axis_op f l2 ax a b -> axis_op f' l2 ax a b.
Proof.
  intros E Ea (S & St & W & H). repeat split; auto. intros pre post Hp Hv y Hy. rewrite <- E; auto.
  rewrite line_length, Hp. apply (nth_error_axlen _ _ _ Ea).
Qed.

(** a total, buffer-independent slice operation *)
Lemma axop_runs f l1 l2 zo a ax : linop f l1 l2 -> zip_ok zo -> std a = true -> nth_error (shp a) ax = Some l1 ->
  exists b, axop f l1 l2 zo a ax = Ok b /\ axis_op f l2 ax a b.
Proof.
  intros L Hz St Ea. destruct (nth_error_axlen _ _ _ Ea) as [Ha La]. unfold axop. rewrite resized_in by auto. cbn [bind].
  assert (F : fits l1 l2 a (fresh dflt a l2 ax) ax) by (apply fits_fresh; auto).
  destruct (apply_fits_ok dflt f l1 l2 (zo (shp a) (shp (fresh (dflt : T2) a l2 ax)) ax) a (fresh dflt a l2 ax) ax L) as [b Hb]; auto.
  apply wf_fresh. exists b. split; auto.
  pose proof (apply_along dflt f l1 l2 (zo (shp a) (shp (fresh (dflt : T2) a l2 ax)) ax) a (fresh dflt a l2 ax) ax (or_introl L)
    (wf_fresh _ _ _ _) F (Hz _ _ _)) as K. rewrite Hb in K. destruct K as (Sb & Tb & Wb & K).
  split; [exact Sb|]. split; auto. split; auto. intros pre post Hp Hv y Hy.
  specialize (K pre post Hp). change (shp (fresh (dflt : T2) a l2 ax)) with (upd (shp a) ax l2) in K.
  rewrite rm_axis_upd in K. specialize (K Hv). destruct L as (g & C & _).
  assert (Lx : length (line a pre post) = l1) by (rewrite line_length, Hp; auto).
  rewrite (proj1 (C _ y Lx Hy)). rewrite <- K. symmetry. apply C; auto.
  rewrite line_length, Hp. cbn. apply axlen_upd; auto.
Qed.

Lemma inplace_runs f l1 l2 zo a (o : arr T2) ax : uniform f l1 l2 -> zip_ok zo ->
  wf o -> std o = true -> shp o = upd (shp a) ax l2 -> ax < length (shp a) ->
  apply_along_axis dflt f l1 l2 (zo (shp a) (shp o) ax) a o ax = axop f l1 l2 zo a ax.
Proof.
  intros U Hz W St So Ha. unfold axop. rewrite resized_in by auto. cbn [bind].
  apply apply_indep; auto. apply wf_fresh.
Qed.

Lemma axis_op_extent f l2 ax a b : ax < length (shp a) -> axis_op f l2 ax a b -> nth_error (shp b) ax = Some l2.
Proof. intros Ha (S & _). rewrite S. apply nth_error_upd_same; auto. Qed.
End Ops.

Lemma axis_op_inv {T1 T2} {d1 : Dflt T1} {d2 : Dflt T2} (f : list T1 -> list T2 -> res (list T2))
    (f' : list T2 -> list T1 -> res (list T1)) l1 l2 ax a b c :
  (forall x y z, length x = l1 -> length y = l2 -> length z = l1 -> (let* w := f x y in f' w z) = Ok x) ->
  wf a -> std a = true -> nth_error (shp a) ax = Some l1 ->
  axis_op f l2 ax a b -> axis_op f' l1 ax b c -> c = a.
Proof.
  intros RT W St Ea (S & _ & _ & H) (S' & St' & W' & H'). destruct (nth_error_axlen _ _ _ Ea) as [Ha La].
  assert (Sc : shp c = shp a) by (rewrite S', S, upd_idem, upd_self; auto).
  apply (C25_lines_determine_array T1 d1 c a ax); try congruence.
  intros pre post Hp Hv. rewrite Sc in Hv.
  specialize (H pre post Hp Hv (repeat dflt l2) (repeat_length _ _)).
  rewrite S, rm_axis_upd in H'.
  specialize (H' pre post Hp Hv (repeat dflt l1) (repeat_length _ _)).
  specialize (RT (line a pre post) (repeat dflt l2) (repeat dflt l1)). rewrite H in RT. cbn [bind] in RT. rewrite H' in RT.
  assert (Ok (line c pre post) = Ok (line a pre post)) by (apply RT; rewrite ?repeat_length, ?line_length, ?Hp; auto). congruence.
Qed.

(** f' after f is g on slices => same on arrays *)
Lemma axis_op_comp {T1 T2 T3} {d1 : Dflt T1} {d2 : Dflt T2} {d3 : Dflt T3} (f : list T1 -> list T2 -> res (list T2))
    (f' : list T2 -> list T3 -> res (list T3)) g l1 l2 l3 ax a b c :
  (forall x y z, length x = l1 -> length y = l2 -> length z = l3 -> (let* w := f x y in f' w z) = g x z) ->
  nth_error (shp a) ax = Some l1 ->
  axis_op f l2 ax a b -> axis_op f' l3 ax b c -> axis_op g l3 ax a c.
Proof.
  intros RT Ea (S & _ & _ & H) (S' & St' & W' & H'). destruct (nth_error_axlen _ _ _ Ea) as [Ha La].
  split. rewrite S', S, upd_idem; auto. split; auto. split; auto. intros pre post Hp Hv y Hy.
  specialize (H pre post Hp Hv (repeat dflt l2) (repeat_length _ _)).
  rewrite S, rm_axis_upd in H'. specialize (H' pre post Hp Hv y Hy).
  rewrite <- (RT _ (repeat dflt l2)). rewrite H. exact H'. rewrite line_length, Hp; auto. apply repeat_length. auto.
Qed.
