(** One-dimensional facts about the accessors of a base, in the form in which
    the spaces use them. *)
From Coq Require Import List Arith Lia Bool ZArith Reals Lra Permutation Ring.
From Verif Require Import Base Num Linalg LinalgSpec Stencils StencilProofs StencilProofs2 Cheb Compo
  ChebPoly ChebGrad ChebMat ChebDct ChebFacts CompoProofs CompoFacts CompoFacts2 CompoFacts3
  Fourier FourierFacts FourierProofs FourierOps FourierSpec PropCheb PropCompo PropFourier NdArray NdArrayFacts AxisFacts Bases BaseLin LibBase AxisProps
  PropAxis SpaceFacts SpaceBases SpaceStages Space MatOp SpaceOrder Elements.
Import ListNotations.
Local Open Scope R_scope.

(** The base made by the constructor [k] with size [n]: its transforms and
    operators [b] (used with element type T) and its accessors [e]. *)
Inductive made (bm : bmode) : ctor -> nat -> forall (P S T : Type), Vec R P -> Vec R S -> Vec R T -> base_ops P S T -> elems R -> Prop :=
| made_chebyshev T (V : Vec R T) (L : VecR T) n b : new_chebyshev n = Ok b ->
    made bm Chebyshev n R R T vec_self vec_self V (r2r_ops b) (r2r_elems bm b)
| made_composite T (V : Vec R T) (L : VecR T) k n b : new_composite k n = Ok b ->
    made bm (ChebComposite k) n R R T vec_self vec_self V (r2r_ops b) (r2r_elems bm b)
| made_fourier_r2c n f : r2c_new n = Ok f ->
    made bm FourierR2c n R (cplx R) (cplx R) vec_self vec_cplx vec_cplx (r2c_ops f) (r2c_elems f)
| made_fourier_c2c n f : c2c_new n = Ok f ->
    made bm FourierC2c n (cplx R) (cplx R) (cplx R) vec_cplx vec_cplx vec_cplx (c2c_ops f) (c2c_elems f).

(** Bases all of whose operators work (C16, C44). *)
Definition ctor_usable (k : ctor) (n : nat) : Prop :=
  match k with ChebComposite k => biharmonic k = false /\ (ssolve k <= n)%nat | _ => True end.

Lemma made_usable bm k n P S T VP VS VT b e : made bm k n P S T VP VS VT b e -> ctor_usable k n -> usable P S T VP VS VT b.
Proof.
  intros []; cbn; intros H'; [eapply us_chebyshev|eapply us_composite|eapply us_fourier_r2c|eapply us_fourier_c2c]; eauto; apply H'.
Qed.

Lemma vext_self (x y : R) : x = y -> x = y. Proof. auto. Qed.
Lemma vsum_eye {T} {V : Vec R T} {L : VecR T} m (x : list T) i : (i < m)%nat ->
  vsum m (fun j => vmul x.[j] (eye (A := R) m).[i].[j]) = x.[i].
Proof.
  intros Hi. apply vext. intros p. rewrite vproj_vsum. rewrite (rsum_delta m i); auto.
  - rewrite vproj_mul, ChebFacts.eye_at by auto. rewrite Nat.eqb_refl. ring.
  - intros j Hj Hne. rewrite vproj_mul, ChebFacts.eye_at by auto. destruct (Nat.eqb_spec i j); [congruence|ring].
Qed.
Lemma eye_dims m : mat_dims (eye (A := R) m) m m.
Proof.
  unfold eye, mat_dims. rewrite map_length, seq_length. split; auto. intros i Hi.
  rewrite (at_map_seq (fun i => _)) by auto. rewrite map_length, seq_length. auto.
Qed.
Lemma rmat_copy {T} {V : Vec R T} {L : VecR T} m :
  rmat (fun i j => (eye (A := R) m).[i].[j]) (fun x y : list T => Ok (zip_write y x)) m m.
Proof.
  intros x y Hx Hy. exists x. rewrite zip_write_full by congruence. split; auto. split; auto. intros. symmetry. apply vsum_eye; auto.
Qed.

(** [stencil()] is the matrix of [to_ortho]. *)
Lemma made_stencil bm k n P S T VP VS VT b e : made bm k n P S T VP VS VT b e -> ctor_usable k n ->
  exists M, e_stencil e = Ok M /\ mat_dims M (len_orth b) (len_spec b) /\
    rmat (fun i j => M.[i].[j]) (to_ortho_slice b) (len_spec b) (len_orth b).
Proof.
  intros [T' V L n' b' H|T' V L k' n' b' H|n' f H|n' f H] U.
  - apply new_chebyshev_inv in H as [Hn ->]. eexists. split; [reflexivity|]. split; [apply eye_dims|apply rmat_copy].
  - apply new_composite_inv in H as (c & Hc & ->). destruct U as [Hb Hs].
    pose proof (len_spec_eq k' n' c Hc) as Es. destruct (new_ortho k' n' c Hc) as (Eo & El & H4 & Hc').
    cbn [r2r_ops r2r_elems e_stencil len_orth len_spec to_ortho_slice]. rewrite El.
    pose proof (to_array_ok k' n' c Hc) as HM. apply wp_Ok in HM as (M & EM & HM). exists M. split; auto. rewrite Es. split. apply HM.
    intros x y Hx Hy. pose proof (to_ortho_ok k' n' c x y Hc Hb Hx Hy) as W. apply wp_Ok in W as (z & Ez & HZ).
    exists z. split; auto. apply (is_mat_matvec M) in HZ; auto.
  - apply r2c_new_inv in H as [Hn ->]. eexists. split; [reflexivity|]. split; [apply eye_dims|apply rmat_copy].
  - apply c2c_new_inv in H as [Hn ->]. eexists. split; [reflexivity|]. split; [apply eye_dims|apply rmat_copy].
Qed.

Definition left_inverse (m l : nat) (Q M : list (list R)) : Prop :=
  mat_dims M l m /\ mat_dims Q m l /\
  forall i j, (i < m)%nat -> (j < m)%nat -> rsum l (fun r => Q.[i].[r] * M.[r].[j]) = if (i =? j)%nat then 1 else 0.
Lemma left_inverse_eye m : left_inverse m m (eye m) (eye m).
Proof.
  split; [apply eye_dims|]. split; [apply eye_dims|]. intros i j Hi Hj. rewrite (rsum_delta m i); auto.
  - rewrite !ChebFacts.eye_at by auto. rewrite Nat.eqb_refl. ring.
  - intros r Hr Hne. rewrite (ChebFacts.eye_at m i r) by auto. destruct (Nat.eqb_spec i r); [congruence|ring].
Qed.
Lemma made_stencil_inv bm k n P S T VP VS VT b e : made bm k n P S T VP VS VT b e ->
  exists M Q, e_stencil e = Ok M /\ e_stencil_inv e = Ok Q /\ left_inverse (len_spec b) (len_orth b) Q M.
Proof.
  intros [T' V L n' b' H|T' V L k' n' b' H|n' f H|n' f H].
  - apply new_chebyshev_inv in H as [Hn ->]. do 2 eexists. split; [reflexivity|]. split; [reflexivity|]. apply left_inverse_eye.
  - apply new_composite_inv in H as (c & Hc & ->).
    pose proof (len_spec_eq k' n' c Hc) as Es. destruct (new_ortho k' n' c Hc) as (Eo & El & H4 & Hc').
    cbn [r2r_ops r2r_elems e_stencil e_stencil_inv len_orth len_spec]. rewrite El.
    pose proof (C13_stencil_inv_left_inverse k' n' c Hc) as W. apply wp_Ok in W as (M & EM & W). apply wp_Ok in W as (Q & EQ & W).
    exists M, Q. auto.
  - apply r2c_new_inv in H as [Hn ->]. do 2 eexists. split; [reflexivity|]. split; [reflexivity|]. apply left_inverse_eye.
  - apply c2c_new_inv in H as [Hn ->]. do 2 eexists. split; [reflexivity|]. split; [reflexivity|]. apply left_inverse_eye.
Qed.

Lemma made_len bm k n P S T VP VS VT b e : made bm k n P S T VP VS VT b e -> len_phys b = n.
Proof.
  intros [T' V L n' b' H|T' V L k' n' b' H|n' f H|n' f H].
  - apply new_chebyshev_inv in H as [Hn ->]. auto.
  - apply new_composite_inv in H as (c & Hc & ->). apply compo_new_inv in Hc. cbn [r2r_ops len_phys]. tauto.
  - apply r2c_new_inv in H as [Hn ->]. auto.
  - apply c2c_new_inv in H as [Hn ->]. auto.
Qed.
Lemma made_coords bm k n P S T VP VS VT b e : made bm k n P S T VP VS VT b e -> elems_new bm k n = Ok e.
Proof.
  intros [T' V L n' b' H|T' V L k' n' b' H|n' f H|n' f H]; cbn [elems_new]; rewrite H; reflexivity.
Qed.

(** ** Entry by entry: an operation along an axis *)
Lemma at_indep {X} (d d' : Dflt X) (l : list X) i : (i < length l)%nat -> @at_ X d l i = @at_ X d' l i.
Proof. intros. unfold at_. apply nth_indep; auto. Qed.
Lemma axis_op_entry {T1 T2} {d1 : Dflt T1} {d2 : Dflt T2} (f : list T1 -> list T2 -> res (list T2)) (F : list T1 -> nat -> T2) l1 l2 ax (a : arr T1) (b : arr T2) :
  (forall x y, length x = l1 -> length y = l2 -> exists z, f x y = Ok z /\ length z = l2 /\ forall k, (k < l2)%nat -> z.[k] = F x k) ->
  nth_error (shp a) ax = Some l1 -> axis_op f l2 ax a b ->
  forall idx, valid (shp b) idx -> get b idx = F (line a (firstn ax idx) (skipn (Datatypes.S ax) idx)) (nth ax idx 0%nat).
Proof.
  intros HM Ea (S & _ & _ & H) idx V. destruct (nth_error_axlen _ _ _ Ea) as [Ha La].
  rewrite S in V. destruct (valid_rm _ _ _ _ V Ha) as [Vr Hk]. pose proof (valid_len _ _ V) as Lv. rewrite upd_length in Lv.
  set (pre := firstn ax idx) in *. set (post := skipn (Datatypes.S ax) idx) in *.
  assert (Lp : length pre = ax) by (unfold pre; rewrite firstn_length; lia).
  specialize (H pre post Lp Vr (repeat dflt l2) (repeat_length _ _)).
  destruct (HM (line a pre post) (repeat dflt l2)) as (z & Ez & Lz & Vz).
  { rewrite line_length, Lp; auto. } { apply repeat_length. }
  rewrite Ez in H. assert (Z : z = line b pre post) by congruence. specialize (Vz _ Hk). rewrite Z in Vz.
  assert (Lb : axlen (shp b) ax = l2) by (rewrite S; apply axlen_upd; auto).
  rewrite (C25_line_elements T2 d2 b pre) in Vz by (rewrite Lp, Lb; auto).
  rewrite (split_nth idx ax) at 1 by lia. fold pre post. exact Vz.
Qed.
Lemma line_upd {T} {dT : Dflt T} (a : arr T) l ax idx j : nth_error (shp a) ax = Some l -> (ax < length idx)%nat -> (j < l)%nat ->
  (line a (firstn ax idx) (skipn (Datatypes.S ax) idx)).[j] = get a (upd idx ax j).
Proof.
  intros Ea Hi Hj. destruct (nth_error_axlen _ _ _ Ea) as [Ha La]. rewrite (C25_line_elements T dT).
  rewrite upd_split by auto. reflexivity. rewrite firstn_length, Nat.min_l by lia. rewrite La; auto.
Qed.
Lemma axis_op_rmat {T} {V : Vec R T} {dT : Dflt T} (M : nat -> nat -> R) f l1 l2 ax (a b : arr T) :
  rmat M f l1 l2 -> nth_error (shp a) ax = Some l1 -> axis_op f l2 ax a b ->
  forall idx, valid (shp b) idx -> get b idx = vsum l1 (fun k => vmul (get a (upd idx ax k)) (M (nth ax idx 0%nat) k)).
Proof.
  intros HM Ea A idx Hv. destruct (nth_error_axlen _ _ _ Ea) as [Ha La].
  rewrite (axis_op_entry f (fun x i => vsum l1 (fun k => vmul x.[k] (M i k))) l1 l2 ax a b); auto.
  - apply vsum_ext. intros k Hk. f_equal. apply (line_upd a l1 ax idx k); auto.
    destruct A as (S & _). rewrite S in Hv. apply valid_len in Hv. rewrite upd_length in Hv. lia.
  - intros x y Hx Hy. destruct (HM x y Hx Hy) as (z & Ez & Lz & Hz). exists z. split; auto. split; auto. intros k Hk.
    rewrite (at_indep dT dflt_vec) by lia. rewrite Hz by auto. apply vsum_ext. intros j Hj. f_equal. apply at_indep. lia.
Qed.
Lemma made_vecR bm k n P S T VP VS VT b e : made bm k n P S T VP VS VT b e -> exists L : @VecR T VT, True.
Proof.
  intros [T0 V L ? ? ?|T0 V L ? ? ? ?|? ? ?|? ? ?]; [exists L|exists L|exists vecR_C|exists vecR_C]; exact I.
Qed.
Lemma left_inverse_cancels {T} {V : Vec R T} {L : VecR T} m l Q M (x u : nat -> T) : left_inverse m l Q M ->
  (forall i, (i < l)%nat -> u i = vsum m (fun k => vmul (x k) M.[i].[k])) ->
  forall k, (k < m)%nat -> vsum l (fun i => vmul (u i) Q.[k].[i]) = x k.
Proof.
  intros (DM & DQ & E) Hu k Hk. apply vext. intros p. rewrite vproj_vsum.
  rewrite (rsum_ext l _ (fun i => rsum m (fun j => Q.[k].[i] * M.[i].[j] * vproj p (x j)))).
  2:{ intros i Hi. rewrite vproj_mul, Hu, vproj_vsum by auto. rewrite <- rsum_scal_r. apply rsum_ext. intros j Hj. rewrite vproj_mul. ring. }
  rewrite rsum_swap. rewrite (rsum_delta m k); auto.
  - rewrite rsum_scal_r, E by auto. rewrite Nat.eqb_refl. ring.
  - intros j Hj Hne. rewrite rsum_scal_r, E by auto. destruct (Nat.eqb_spec k j); [congruence|ring].
Qed.
(** Two operations on the same array whose results are related. *)
Lemma axis_op_entry2 {T1 T2 T3} {d1 : Dflt T1} {d2 : Dflt T2} {d3 : Dflt T3} (f : list T1 -> list T2 -> res (list T2)) (g : list T1 -> list T3 -> res (list T3))
    (F : list T2 -> nat -> T3) l1 l2 l3 ax (a : arr T1) (b : arr T2) (c : arr T3) :
  (forall x y z, length x = l1 -> length y = l2 -> length z = l3 ->
     exists v w, f x y = Ok v /\ g x z = Ok w /\ length w = l3 /\ forall k, (k < l3)%nat -> w.[k] = F v k) ->
  nth_error (shp a) ax = Some l1 -> axis_op f l2 ax a b -> axis_op g l3 ax a c ->
  forall idx, valid (shp c) idx -> get c idx = F (line b (firstn ax idx) (skipn (Datatypes.S ax) idx)) (nth ax idx 0%nat).
Proof.
  intros HM Ea (Sb & _ & _ & Hb) (S & _ & _ & H) idx V. destruct (nth_error_axlen _ _ _ Ea) as [Ha La].
  rewrite S in V. destruct (valid_rm _ _ _ _ V Ha) as [Vr Hk]. pose proof (valid_len _ _ V) as Lv. rewrite upd_length in Lv.
  set (pre := firstn ax idx) in *. set (post := skipn (Datatypes.S ax) idx) in *.
  assert (Lp : length pre = ax) by (unfold pre; rewrite firstn_length; lia).
  specialize (H pre post Lp Vr (repeat dflt l3) (repeat_length _ _)).
  specialize (Hb pre post Lp Vr (repeat dflt l2) (repeat_length _ _)).
  destruct (HM (line a pre post) (repeat dflt l2) (repeat dflt l3)) as (v & w & Ev & Ew & Lw & Vw).
  { rewrite line_length, Lp; auto. } { apply repeat_length. } { apply repeat_length. }
  assert (Z : w = line c pre post) by congruence. assert (Y : v = line b pre post) by congruence.
  specialize (Vw _ Hk). rewrite Z, Y in Vw.
  assert (Lb : axlen (shp c) ax = l3) by (rewrite S; apply axlen_upd; auto).
  rewrite (C25_line_elements T3 d3 c pre) in Vw by (rewrite Lp, Lb; auto).
  rewrite (split_nth idx ax) at 1 by lia. fold pre post. exact Vw.
Qed.
