(** Slice operations given by a matrix, and: operations along different axes
    commute. *)
From Coq Require Import List Arith Lia Bool ZArith Reals Lra Permutation Ring.
From Verif Require Import Base Num Linalg LinalgSpec Stencils StencilProofs StencilProofs2 Cheb Compo
  ChebPoly ChebGrad ChebMat ChebDct ChebFacts CompoProofs CompoFacts CompoFacts2 CompoFacts3
  Fourier FourierFacts FourierProofs FourierOps FourierSpec NdArray NdArrayFacts AxisFacts Bases BaseLin LibBase AxisProps PropAxis SpaceFacts SpaceBases.
Import ListNotations.
Local Open Scope nat_scope.

Section Ring.
Context {T : Type} {dT : Dflt T} (rO rI : T) (radd rmul rsub : T -> T -> T) (ropp : T -> T).
Hypothesis RT : ring_theory rO rI radd rmul rsub ropp eq.
Add Ring Tring : RT.

Fixpoint tsum (n : nat) (f : nat -> T) : T := match n with 0 => rO | S n => radd (tsum n f) (f n) end.
Lemma tsum_ext n f g : (forall k, k < n -> f k = g k) -> tsum n f = tsum n g.
Proof. intros H. induction n; cbn; auto. rewrite IHn, H; auto. Qed.
Lemma tsum_add n f g : tsum n (fun k => radd (f k) (g k)) = radd (tsum n f) (tsum n g).
Proof. induction n; cbn. ring. rewrite IHn. ring. Qed.
Lemma tsum_mul n c f : tsum n (fun k => rmul c (f k)) = rmul c (tsum n f).
Proof. induction n; cbn. ring. rewrite IHn. ring. Qed.
Lemma tsum_zero n : tsum n (fun _ => rO) = rO.
Proof. induction n; cbn; auto. rewrite IHn. ring. Qed.
Lemma tsum_swap n m f : tsum n (fun i => tsum m (fun j => f i j)) = tsum m (fun j => tsum n (fun i => f i j)).
Proof. induction n; cbn. symmetry; apply tsum_zero. rewrite IHn, <- tsum_add. reflexivity. Qed.

(** [f] multiplies by some matrix, whatever the output buffer held. *)
Definition matop (f : list T -> list T -> res (list T)) (l1 l2 : nat) : Prop :=
  exists M : nat -> nat -> T, forall x y, length x = l1 -> length y = l2 ->
    exists z, f x y = Ok z /\ length z = l2 /\ forall k, k < l2 -> z.[k] = tsum l1 (fun j => rmul (M k j) x.[j]).

Lemma valid_upd_in sh idx ax n j : valid (upd sh ax n) idx -> ax < length sh -> nth_error sh ax = Some j -> forall i, i < j -> valid sh (upd idx ax i).
Proof.
  unfold valid. revert idx ax. induction sh as [|s sh IH]; intros [|i0 idx] [|ax] V Ha E i Hi; cbn in *; try lia; inversion V; subst.
  - inversion E; subst. constructor; auto.
  - constructor; auto. apply IH; auto; lia.
Qed.
Lemma split_nth (idx : list nat) ax : ax < length idx -> idx = firstn ax idx ++ nth ax idx 0 :: skipn (S ax) idx.
Proof. revert ax. induction idx as [|i idx IH]; intros [|ax] H; cbn in *; try lia; auto. f_equal. apply IH. lia. Qed.
Lemma upd_split (idx : list nat) ax j : ax < length idx -> upd idx ax j = firstn ax idx ++ j :: skipn (S ax) idx.
Proof. revert ax. induction idx as [|i idx IH]; intros [|ax] H; cbn in *; try lia; auto. f_equal. apply IH. lia. Qed.
Lemma valid_rm sh idx ax n : valid (upd sh ax n) idx -> ax < length sh ->
  valid (rm_axis sh ax) (firstn ax idx ++ skipn (S ax) idx) /\ nth ax idx 0 < n.
Proof.
  unfold valid, rm_axis. revert idx ax. induction sh as [|s sh IH]; intros [|i0 idx] [|ax] V Ha; cbn in *; try lia; inversion V; subst.
  - auto.
  - destruct (IH idx ax) as [A B]; auto; try lia; split; auto; try (constructor; auto).
Qed.

Definition acts (M : nat -> nat -> T) (l1 ax : nat) (a b : arr T) : Prop :=
  forall idx, valid (shp b) idx -> get b idx = tsum l1 (fun j => rmul (M (nth ax idx 0) j) (get a (upd idx ax j))).

Lemma axis_op_acts (M : nat -> nat -> T) (f : list T -> list T -> res (list T)) l1 l2 ax a b :
  (forall x y, length x = l1 -> length y = l2 ->
    exists z, f x y = Ok z /\ length z = l2 /\ forall k, k < l2 -> z.[k] = tsum l1 (fun j => rmul (M k j) x.[j])) ->
  nth_error (shp a) ax = Some l1 -> axis_op f l2 ax a b -> acts M l1 ax a b.
Proof.
  intros HM Ea (S & St & W & H) idx V. destruct (nth_error_axlen _ _ _ Ea) as [Ha La].
  rewrite S in V. destruct (valid_rm _ _ _ _ V Ha) as [Vr Hk]. pose proof (valid_len _ _ V) as Lv. rewrite upd_length in Lv.
  set (pre := firstn ax idx) in *. set (post := skipn (Datatypes.S ax) idx) in *.
  assert (Lp : length pre = ax) by (unfold pre; rewrite firstn_length; lia).
  specialize (H pre post Lp Vr (repeat dflt l2) (repeat_length _ _)).
  destruct (HM (line a pre post) (repeat dflt l2)) as (z & Ez & Lz & Vz).
  { rewrite line_length, Lp; auto. } { apply repeat_length. }
  rewrite Ez in H. assert (Z : z = line b pre post) by congruence. specialize (Vz _ Hk). rewrite Z in Vz.
  assert (Lb : axlen (shp b) ax = l2) by (rewrite S; apply axlen_upd; auto).
  rewrite (C25_line_elements T dT b pre) in Vz by (rewrite Lp, Lb; auto).
  rewrite (split_nth idx ax) at 1 by lia. fold pre post. etransitivity; [exact Vz|]. apply tsum_ext. intros j Hj.
  f_equal. rewrite (C25_line_elements T dT a pre) by (rewrite Lp, La; auto). rewrite upd_split by lia. reflexivity.
Qed.

Lemma get_ext (a b : arr T) : shp a = shp b -> std a = std b -> wf a -> wf b -> (forall idx, valid (shp a) idx -> get a idx = get b idx) -> a = b.
Proof.
  intros Es Et Wa Wb H. apply arr_eq; auto. unfold wf in *. apply list_ext. congruence. intros i Hi. rewrite Wa in Hi.
  destruct (unravel _ _ Hi) as (idx & V & E). specialize (H idx V). unfold get in H. rewrite <- Es, E in H. auto.
Qed.

Lemma ops_commute f l1 l2 ax f' l1' l2' ax' a b c b' c' : matop f l1 l2 -> matop f' l1' l2' -> ax <> ax' ->
  nth_error (shp a) ax = Some l1 -> nth_error (shp a) ax' = Some l1' ->
  axis_op f l2 ax a b -> axis_op f' l2' ax' b c -> axis_op f' l2' ax' a b' -> axis_op f l2 ax b' c' -> c = c'.
Proof.
  intros [M HM] [M' HM'] N E E' A1 A2 A3 A4.
  destruct (nth_error_axlen _ _ _ E) as [Ha _]. destruct (nth_error_axlen _ _ _ E') as [Ha' _].
  pose proof A1 as (S1 & _). pose proof A2 as (S2 & T2 & W2 & _). pose proof A3 as (S3 & _). pose proof A4 as (S4 & T4 & W4 & _).
  assert (Eb : nth_error (shp b) ax' = Some l1') by (rewrite S1, nth_error_upd_other; auto).
  assert (Eb' : nth_error (shp b') ax = Some l1) by (rewrite S3, nth_error_upd_other; auto).
  pose proof (axis_op_acts M f l1 l2 ax a b HM E A1) as G1. pose proof (axis_op_acts M' f' l1' l2' ax' b c HM' Eb A2) as G2.
  pose proof (axis_op_acts M' f' l1' l2' ax' a b' HM' E' A3) as G3. pose proof (axis_op_acts M f l1 l2 ax b' c' HM Eb' A4) as G4.
  assert (Sc : shp c = shp c') by (rewrite S2, S1, S4, S3; apply upd_comm; auto).
  apply get_ext; auto; try congruence. intros idx V.
  assert (V' : valid (shp c') idx) by (rewrite <- Sc; auto).
  assert (Nth : forall i j k, i <> j -> nth i (upd idx j k) 0 = nth i idx 0).
  { clear. intros i j k. revert idx i. induction j; intros [|x idx] [|i] H; cbn; auto; try lia. }
  rewrite G2 by auto. rewrite (G4 idx) by auto.
  rewrite (tsum_ext _ _ (fun j => tsum l1 (fun i => rmul (rmul (M' (nth ax' idx 0) j) (M (nth ax idx 0) i)) (get a (upd (upd idx ax' j) ax i))))).
  2:{ intros j Hj. rewrite G1. rewrite <- tsum_mul. apply tsum_ext. intros i Hi. rewrite Nth by auto. ring.
      rewrite S2 in V. refine (valid_upd_in _ _ _ _ _ V _ Eb _ Hj). rewrite S1, upd_length; auto. }
  rewrite tsum_swap. apply tsum_ext. intros i Hi. rewrite G3.
  - rewrite <- tsum_mul. apply tsum_ext. intros j Hj. rewrite Nth by auto. rewrite (upd_comm idx ax ax') by auto. ring.
  - rewrite S4 in V'. refine (valid_upd_in _ _ _ _ _ V' _ Eb' _ Hi). rewrite S3, upd_length; auto.
Qed.
End Ring.

(** ** The library's slice operations are matrices *)
Local Open Scope R_scope.
(** real matrix acting on vectors over T *)
Definition rmat {T} {V : Vec R T} (M : nat -> nat -> R) (f : list T -> list T -> res (list T)) (l1 l2 : nat) : Prop :=
  forall x y, length x = l1 -> length y = l2 ->
    exists z, f x y = Ok z /\ length z = l2 /\ forall k, (k < l2)%nat -> z.[k] = vsum l1 (fun j => vmul x.[j] (M k j)).
Definition rmatop {T} {V : Vec R T} (f : list T -> list T -> res (list T)) (l1 l2 : nat) : Prop := exists M, rmat M f l1 l2.

Notation matop_R := (matop 0 Rplus Rmult).
Notation matop_C := (matop (c0 (A := R)) cadd cmul).

Lemma tsum_rsum n f : tsum 0 Rplus n f = rsum n f.
Proof. induction n; cbn; congruence. Qed.
Lemma tsum_csum n f : tsum (c0 (A := R)) cadd n f = csum n f.
Proof. induction n; cbn [tsum]. reflexivity. rewrite IHn, csum_S; auto. Qed.

Lemma rmatop_matop_R (f : list R -> list R -> res (list R)) l1 l2 : rmatop f l1 l2 -> matop_R f l1 l2.
Proof.
  intros [M H]. exists M. intros x y Hx Hy. destruct (H x y Hx Hy) as (z & E & L & Hz). exists z. split; auto. split; auto.
  intros k Hk. etransitivity; [apply Hz; auto|]. rewrite tsum_rsum, vsum_rsum. apply rsum_ext. intros j Hj. apply Rmult_comm.
Qed.
Lemma rmatop_matop_C (f : list (cplx R) -> list (cplx R) -> res (list (cplx R))) l1 l2 : rmatop f l1 l2 -> matop_C f l1 l2.
Proof.
  intros [M H]. exists (fun k j => (M k j, 0)). intros x y Hx Hy. destruct (H x y Hx Hy) as (z & E & L & Hz). exists z. split; auto. split; auto.
  intros k Hk. etransitivity; [apply Hz; auto|]. rewrite tsum_csum, vsum_csum. apply csum_ext. intros j Hj. rewrite vmulC.
  apply (Rmul_comm C_ring).
Qed.

(** linear over R in dimension one is a matrix *)
Lemma linop_rmatop (f : list R -> list R -> res (list R)) l1 l2 : linop f l1 l2 -> rmatop f l1 l2.
Proof.
  intros (g & C & A & S). set (e := fun j => map (fun i => if (i =? j)%nat then 1 else 0) (seq 0 l1)).
  assert (Le : forall j, length (e j) = l1) by (intros; unfold e; rewrite map_length, seq_length; auto).
  exists (fun k j => (g (e j)).[k]). intros x y Hx Hy. exists (g x). destruct (C x y Hx Hy) as [E L]. split; auto. split; auto.
  set (tr := fun j => map (fun i => if (i <? j)%nat then x.[i] else 0) (seq 0 l1)).
  assert (Lt : forall j, length (tr j) = l1) by (intros; unfold tr; rewrite map_length, seq_length; auto).
  assert (Lg : forall v, length v = l1 -> length (g v) = l2) by (intros v Hv; apply (C v y); auto).
  assert (K : forall j, (j <= l1)%nat -> forall k, (k < l2)%nat -> (g (tr j)).[k] = rsum j (fun i => x.[i] * (g (e i)).[k])).
  { induction j as [|j IH]; intros Hj k Hk.
    - assert (Z : tr 0%nat = lscal x 0).
      { apply list_ext. rewrite lscal_length, Lt; auto. intros i Hi. rewrite Lt in Hi. rewrite at_lscalR. unfold tr.
        etransitivity; [apply (at_map_seq (fun i => if (i <? 0)%nat then x.[i] else 0) 0 l1 i); auto|]. cbn. ring. }
      rewrite Z, S by auto. rewrite at_lscalR. cbn. ring.
    - assert (Z : tr (Datatypes.S j) = ladd (tr j) (lscal (e j) x.[j])).
      { apply list_ext. rewrite ladd_length; rewrite ?lscal_length, ?Lt, ?Le; auto. intros i Hi. rewrite Lt in Hi.
        rewrite (at_laddR _ _ _ l1) by (rewrite ?lscal_length; auto). rewrite at_lscalR. unfold tr, e.
        etransitivity; [apply (at_map_seq (fun i => if (i <? Datatypes.S j)%nat then x.[i] else 0) 0 l1 i); auto|].
        etransitivity; [|symmetry; apply f_equal2; [apply (at_map_seq (fun i => if (i <? j)%nat then x.[i] else 0) 0 l1 i); auto|
           apply f_equal2; [apply (at_map_seq (fun i => if (i =? j)%nat then 1 else 0) 0 l1 i); auto|reflexivity]]].
        cbn [Nat.add]. destruct (Nat.ltb_spec i (Datatypes.S j)), (Nat.ltb_spec i j), (Nat.eqb_spec i j); try lia; subst; ring. }
      rewrite Z, A by (rewrite ?lscal_length; auto). rewrite S by auto.
      rewrite (at_laddR _ _ _ l2) by (rewrite ?lscal_length; auto). rewrite at_lscalR. cbn [rsum]. rewrite IH by lia. ring. }
  assert (Z : tr l1 = x).
  { apply list_ext. rewrite Lt; auto. intros i Hi. rewrite Lt in Hi. unfold tr.
    etransitivity; [apply (at_map_seq (fun i => if (i <? l1)%nat then x.[i] else 0) 0 l1 i); auto|]. cbn [Nat.add].
    destruct (Nat.ltb_spec i l1); auto; lia. }
  intros k Hk. rewrite <- Z at 1. rewrite K by auto. rewrite vsum_rsum. reflexivity.
Qed.

(** the same matrix serves every element type, if the operation is defined
    coordinate by coordinate *)
Lemma rmat_lift {T} {V : Vec R T} {L : VecR T} (f : list T -> list T -> res (list T)) (fR : list R -> list R -> res (list R)) (Q : list R -> list R -> Prop) l1 l2 :
  (forall x y, length x = l1 -> length y = l2 -> wp (f x y) (fun z => length z = l2 /\ forall p, Q (map (vproj p) x) (map (vproj p) z))) ->
  (forall x y, length x = l1 -> length y = l2 -> wp (fR x y) (Q x)) ->
  (forall x z z', length x = l1 -> Q x z -> Q x z' -> z = z') -> rmatop fR l1 l2 -> rmatop f l1 l2.
Proof.
  intros H HR U [M HM]. exists M. intros x y Hx Hy. pose proof (H x y Hx Hy) as W. apply wp_Ok in W as (z & E & Lz & Hz).
  exists z. split; auto. split; auto. intros k Hk. apply vext. intros p. rewrite vproj_vsum.
  assert (Lp : length (map (vproj p) x) = l1) by (rewrite map_length; auto).
  destruct (HM (map (vproj p) x) (repeat 0 l2) Lp (repeat_length _ _)) as (w & Ew & Lw & Hw).
  pose proof (HR (map (vproj p) x) (repeat 0 l2) Lp (repeat_length _ _)) as QR. rewrite Ew in QR. cbn [wp] in QR.
  specialize (Hz p). rewrite (U _ _ _ Lp QR Hz) in Hw. specialize (Hw k Hk).
  assert (P : forall (v : list T) i, (i < length v)%nat -> (map (vproj p) v).[i] = vproj p v.[i]).
  { intros v i Hi. etransitivity; [apply (at_map (vproj p)); auto|]. reflexivity. }
  rewrite P in Hw by lia. rewrite Hw, vsum_rsum. apply rsum_ext. intros j Hj. rewrite vproj_mul, P by lia. reflexivity.
Qed.

Lemma rmatop_comp {T} {V : Vec R T} {L : VecR T} (f1 f2 : list T -> list T -> res (list T)) l1 l2 l3 m0 :
  rmatop f1 l1 l2 -> rmatop f2 l2 l3 -> length m0 = l2 -> rmatop (fun x y => let* m := f1 x m0 in f2 m y) l1 l3.
Proof.
  intros [M1 H1] [M2 H2] Lm. exists (fun k j => rsum l2 (fun i => M1 i j * M2 k i)). intros x y Hx Hy.
  destruct (H1 x m0 Hx Lm) as (z & Ez & Lz & Hz). rewrite Ez. cbn [bind]. destruct (H2 z y Lz Hy) as (w & Ew & Lw & Hw).
  exists w. split; auto. split; auto. intros k Hk. rewrite Hw by auto. vcoord.
  rewrite (rsum_ext l2 _ (fun i => rsum l1 (fun j => vproj p x.[j] * (M1 i j * M2 k i)))).
  2:{ intros i Hi. rewrite vproj_mul, Hz by auto. rewrite vproj_vsum, <- rsum_scal_r. apply rsum_ext. intros j Hj. rewrite vproj_mul. ring. }
  rewrite rsum_swap. apply rsum_ext. intros j Hj. rewrite vproj_mul, <- rsum_scal_l. reflexivity.
Qed.
Lemma rmatop_ext {T} {V : Vec R T} (f f' : list T -> list T -> res (list T)) l1 l2 :
  (forall x y, length x = l1 -> length y = l2 -> f x y = f' x y) -> rmatop f l1 l2 -> rmatop f' l1 l2.
Proof. intros E [M H]. exists M. intros x y Hx Hy. rewrite <- E by auto. apply H; auto. Qed.
Lemma rmatop_copy {T} {V : Vec R T} {L : VecR T} n : rmatop (fun x y : list T => Ok (zip_write y x)) n n.
Proof.
  exists (fun k j => if (j =? k)%nat then 1 else 0). intros x y Hx Hy. exists x. rewrite zip_write_full by congruence. split; auto. split; auto.
  intros k Hk. vcoord. symmetry. rewrite (rsum_delta n k); auto. rewrite vproj_mul, Nat.eqb_refl. ring.
  intros j Hj N. rewrite vproj_mul. destruct (Nat.eqb_spec j k); try lia. ring.
Qed.

Section R2rOps.
Context {T : Type} {V : Vec R T} {L : VecR T}.
Lemma map_proj_at p (x : list T) i : (map (vproj p) x).[i] = vproj p x.[i].
Proof.
  destruct (Nat.lt_ge_cases i (length x)).
  - etransitivity; [apply (at_map (vproj p)); auto|]. reflexivity.
  - rewrite !at_over by (rewrite ?map_length; auto). symmetry. apply (vproj_0 p).
Qed.
Lemma rmatop_to_ortho k n c : compo_new k n = Ok c -> biharmonic k = false ->
  rmatop (fun x y : list T => compo_to_ortho c x y) (sdim k n) n.
Proof.
  intros H Hb. exists (smat k). intros x y Hx Hy. pose proof (to_ortho_ok k n c x y H Hb Hx Hy) as W.
  apply wp_Ok in W as (z & E & Lz & Hz). eauto.
Qed.
Lemma rmatop_from_ortho k n c : compo_new k n = Ok c -> (ssolve k <= n)%nat ->
  rmatop (fun x y : list T => compo_from_ortho c x y) n (sdim k n).
Proof.
  intros H Hs. pose proof (sdim_eq k n (proj1 (compo_new_inv k n c H))) as En.
  apply (rmat_lift _ (compo_from_ortho (V := vec_self) c) (normal_eq (V := vec_self) n (sdim k n) (smat k))).
  - intros x y Hx Hy. eapply wp_mono; [apply (from_ortho_ok k n c); auto|]. intros z [Lz Hz]. split; auto. intros p. split.
    rewrite map_length; auto. intros j Hj. specialize (Hz j Hj). apply (f_equal (vproj p)) in Hz. rewrite !vproj_vsum in Hz.
    rewrite !vsum_rsum. etransitivity; [|etransitivity; [exact Hz|]].
    + apply rsum_ext. intros i Hi. rewrite vproj_mul. cbn [vmul vec_self nmul num_R]. f_equal. apply map_proj_at.
    + apply rsum_ext. intros i Hi. rewrite vproj_mul. cbn [vmul vec_self nmul num_R]. f_equal. symmetry. apply map_proj_at.
  - intros x y Hx Hy. apply (from_ortho_ok (V := vec_self) k n c); auto.
  - intros x z z' Hx Hz Hz'. pose proof (normal_eq_unique (V := vec_self) k (sdim k n) x z z') as U. rewrite <- En in U. auto.
  - apply linop_rmatop, linop_compo_from_ortho; auto.
Qed.
Lemma rmatop_grad_once m : (3 <= m)%nat -> rmatop (fun x (_ : list T) => grad_once m x) m m.
Proof.
  intros Hm. apply (rmat_lift _ (fun x (_ : list R) => grad_once (V := vec_self) m x)
    (fun x z => length z = m /\ grad_rec (fun k => x.[k]) (fun k => z.[k]))).
  - intros x y Hx Hy. eapply wp_mono; [apply grad_once_ok; auto|]. intros z [Lz Hz]. split; auto. intros p.
    split. rewrite map_length; auto. destruct (Hz p) as [A B]. unfold coord in *. split.
    + rewrite !map_proj_at. exact A.
    + intros k Hk. rewrite !map_proj_at. apply B; auto.
  - intros x y Hx Hy. eapply wp_mono; [apply (grad_once_ok (V := vec_self)); auto|]. intros z [Lz Hz]. split; auto. exact (Hz tt).
  - intros x z z' Hx [Lz Hz] [Lz' Hz']. apply list_ext. congruence. intros i Hi.
    apply (grad_rec_unique m (fun k => x.[k]) (fun k => z.[k]) (fun k => z'.[k])); auto; intros; apply at_over; lia.
  - apply linop_rmatop, (linop_grad_once (V := vec_self)); auto.
Qed.
Lemma rmatop_iter (step : list T -> res (list T)) m d : rmatop (fun x (_ : list T) => step x) m m ->
  rmatop (fun x y => for_each (range 0 d) (fun _ out => step out) (zip_write y x)) m m.
Proof.
  intros H. assert (K : forall d lo, rmatop (fun x (y : list T) => for_each (seq lo d) (fun _ out => step out) x) m m).
  { intros e. induction e as [|e IH]; intros lo; cbn [seq for_each].
    - eapply rmatop_ext; [|apply (rmatop_copy m)]. intros x y Hx Hy. cbv beta. rewrite zip_write_full by congruence. reflexivity.
    - exact (rmatop_comp (fun x (_ : list T) => step x) (fun x (y : list T) => for_each (seq (S lo) e) (fun _ out => step out) x) m m m (repeat v0 m)
        H (IH (S lo)) (repeat_length _ _)). }
  eapply rmatop_ext; [|apply (K d 0%nat)]. intros x y Hx Hy. cbv beta. unfold range. rewrite Nat.sub_0_r, zip_write_full by congruence. reflexivity.
Qed.
Lemma rmatop_cheb_gradient n d : (3 <= n)%nat -> rmatop (fun x y : list T => cheb_gradient (mk_cheb n n) x y d) n n.
Proof.
  intros Hn. eapply rmatop_ext; [|apply (rmatop_iter (grad_once n) n d), rmatop_grad_once; auto].
  intros x y Hx Hy. cbv beta. unfold cheb_gradient. cbn [c_m]. rewrite Hy, Nat.eqb_refl. reflexivity.
Qed.
Lemma rmatop_compo_gradient k n c d : compo_new k n = Ok c -> biharmonic k = false ->
  rmatop (fun x y : list T => compo_gradient c x y d) (sdim k n) n.
Proof.
  intros H Hb. destruct (new_ortho k n c H) as (Eo & El & H4 & Hc). unfold compo_gradient. rewrite El, Eo.
  apply (rmatop_comp (fun x y => compo_to_ortho c x y) (fun x y => cheb_gradient (mk_cheb n n) x y d) (sdim k n) n n).
  apply rmatop_to_ortho; auto. apply rmatop_cheb_gradient; lia. apply repeat_length.
Qed.
End R2rOps.

(** complex matrices *)
Lemma matop_C_formula (f : list (cplx R) -> list (cplx R) -> res (list (cplx R))) l1 l2 (M : nat -> nat -> cplx R) :
  (forall x y, length x = l1 -> length y = l2 -> wp (f x y) (fun z => length z = l2 /\ forall k, (k < l2)%nat -> z.[k] = csum l1 (fun j => cmul (M k j) x.[j]))) ->
  matop_C f l1 l2.
Proof.
  intros H. exists M. intros x y Hx Hy. pose proof (H x y Hx Hy) as W. apply wp_Ok in W as (z & E & Lz & Hz). exists z. split; auto. split; auto.
  intros k Hk. rewrite tsum_csum. etransitivity; [exact (Hz k Hk)|]. reflexivity.
Qed.
Lemma matop_C_diag f n (w : nat -> cplx R) :
  (forall x y, length x = n -> length y = n -> wp (f x y) (fun z => length z = n /\ forall k, (k < n)%nat -> z.[k] = cmul x.[k] (w k))) ->
  matop_C f n n.
Proof.
  intros H. apply (matop_C_formula f n n (fun k j => if (j =? k)%nat then w k else c0)). intros x y Hx Hy. eapply wp_mono; [apply H; auto|].
  intros z [Lz Hz]. split; auto. intros k Hk. rewrite (csum_delta n k); auto. rewrite Nat.eqb_refl, Hz by auto. apply (Rmul_comm C_ring).
  intros j Hj N. destruct (Nat.eqb_spec j k); try lia. ring.
Qed.
Lemma matop_C_c2c_gradient n d : (1 <= n)%nat -> matop_C (fun x y => c2c_gradient (A := R) (mk_c2c n n) x y d) n n.
Proof. intros Hn. eapply matop_C_diag. intros x y Hx Hy. apply c2c_gradient_val; auto. Qed.
Lemma matop_C_r2c_gradient n d : matop_C (fun x y => r2c_gradient (A := R) (mk_r2c n (n / 2 + 1)) x y d) (n / 2 + 1) (n / 2 + 1).
Proof. eapply matop_C_diag. intros x y Hx Hy. apply r2c_gradient_val; auto. Qed.
Lemma matop_C_c2c_forward n : matop_C (c2c_forward (A := R) (mk_c2c n n)) n n.
Proof.
  apply (matop_C_formula _ _ _ (fun i j => E n (sgn false (Z.of_nat j * Z.of_nat i)))).
  intros x y Hx Hy. rewrite c2c_forward_val by auto. cbn [wp]. split. unfold fft. rewrite map_length, seq_length; auto.
  intros i Hi. etransitivity; [apply fft_at; auto|]. apply csum_ext. intros j Hj. apply (Rmul_comm C_ring).
Qed.
Lemma matop_C_c2c_backward n : matop_C (c2c_backward (A := R) (mk_c2c n n)) n n.
Proof.
  apply (matop_C_formula _ _ _ (fun i j => cmul (/ INR n, 0) (E n (sgn true (Z.of_nat j * Z.of_nat i))))).
  intros x y Hx Hy. rewrite c2c_backward_val by auto. cbn [wp]. split. unfold fft. rewrite map_length, seq_length; auto.
  intros i Hi. etransitivity; [apply fft_at; auto|]. apply csum_ext. intros j Hj.
  replace (map (sc n) x).[j] with (sc n x.[j]) by (symmetry; apply at_map; unfold cplx in *; lia). unfold sc. ring.
Qed.
