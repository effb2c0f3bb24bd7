From Coq Require Import List Arith Lia Bool Permutation.
From Verif Require Import Base NdArray NdArrayFacts.
Import ListNotations.

Section Fits.
Context {T1 T2 : Type}.
(** Shapes and layouts the axis-wise methods accept. *)
Definition fits (l1 l2 : nat) (a : arr T1) (b : arr T2) (ax : nat) : Prop :=
  std a = true /\ std b = true /\ nth_error (shp a) ax = Some l1 /\ nth_error (shp b) ax = Some l2 /\
  rm_axis (shp a) ax = rm_axis (shp b) ax.
Definition fits_dec l1 l2 a b ax : {fits l1 l2 a b ax} + {~ fits l1 l2 a b ax}.
Proof.
  unfold fits. destruct (bool_dec (std a) true); [|right; tauto]. destruct (bool_dec (std b) true); [|right; tauto].
  assert (O : forall x y : option nat, {x = y} + {x <> y}) by (decide equality; apply Nat.eq_dec).
  destruct (O (nth_error (shp a) ax) (Some l1)); [|right; tauto]. destruct (O (nth_error (shp b) ax) (Some l2)); [|right; tauto].
  destruct (list_eq_dec Nat.eq_dec (rm_axis (shp a) ax) (rm_axis (shp b) ax)); [left|right]; tauto.
Defined.
End Fits.

Lemma nth_error_axlen sh ax n : nth_error sh ax = Some n -> ax < length sh /\ axlen sh ax = n.
Proof.
  intros H. split. apply nth_error_Some. congruence. unfold axlen. apply nth_error_nth; auto.
Qed.
Lemma nlanes_rm sh ax : nlanes sh ax = size (rm_axis sh ax).
Proof. unfold nlanes, rm_axis. rewrite size_app. auto. Qed.

Lemma check_ok {T} (a : arr T) n ax : check_array_axis a n ax = Ok tt <-> nth_error (shp a) ax = Some n.
Proof.
  unfold check_array_axis, extent, rd. destruct (nth_error (shp a) ax); cbn.
  - destruct (Nat.eqb_spec n0 n); subst; cbn; split; intros H; try discriminate; auto. inversion H; congruence.
  - split; discriminate.
Qed.
Lemma check_no {T} (a : arr T) n ax : nth_error (shp a) ax <> Some n -> check_array_axis a n ax = Panic.
Proof.
  unfold check_array_axis, extent, rd. destruct (nth_error (shp a) ax); cbn; auto.
  destruct (Nat.eqb_spec n0 n); subst; cbn; intros; congruence.
Qed.
Lemma rm_axis_length sh ax : ax < length sh -> length (rm_axis sh ax) = length sh - 1.
Proof. intros. unfold rm_axis. rewrite app_length, firstn_length, skipn_length. lia. Qed.

Section Apply.
Context {T1 T2 : Type} {d1 : Dflt T1} {d2 : Dflt T2}.
Variables (zero : T2) (f : list T1 -> list T2 -> res (list T2)) (l1 l2 : nat).

Lemma apply_no_fit order a b ax : ~ fits l1 l2 a b ax -> apply_along_axis zero f l1 l2 order a b ax = Panic.
Proof.
  intros N. unfold fits in N. unfold apply_along_axis.
  destruct (std a) eqn:Sa; [|reflexivity]. destruct (std b) eqn:Sb; [|reflexivity]. cbn [assertb bind].
  destruct (check_array_axis a l1 ax) as [[]| |] eqn:Ca; cbn [bind]; auto.
  2:{ exfalso. unfold check_array_axis, extent, rd in Ca. destruct (nth_error (shp a) ax); cbn in Ca; try discriminate.
      destruct (_ =? _); discriminate. }
  apply check_ok in Ca.
  destruct (check_array_axis b l2 ax) as [[]| |] eqn:Cb; cbn [bind]; auto.
  2:{ exfalso. unfold check_array_axis, extent, rd in Cb. destruct (nth_error (shp b) ax); cbn in Cb; try discriminate.
      destruct (_ =? _); discriminate. }
  apply check_ok in Cb.
  assert (F : list_eqb (rm_axis (shp a) ax) (rm_axis (shp b) ax) = false).
  { destruct (list_eqb _ _) eqn:E; auto. apply list_eqb_eq in E. tauto. }
  rewrite F. pose proof (nth_error_axlen _ _ _ Ca) as [Ha _]. unfold usub, ndim.
  destruct (Nat.leb_spec 1 (length (shp a))); [|reflexivity]. cbn [bind].
  destruct (ax =? length (shp a) - 1). reflexivity. unfold extent, rd. rewrite Cb. reflexivity.
Qed.

Lemma apply_fit h order a b ax : acts_as f l1 l2 h -> wf b -> fits l1 l2 a b ax ->
  Permutation order (seq 0 (nlanes (shp b) ax)) ->
  match apply_along_axis zero f l1 l2 order a b ax with
  | Ok b' => shp b' = shp b /\ std b' = true /\ lanewise h (shp a) (shp b) ax (dat a) (Ok (dat b'))
  | Panic => lanewise h (shp a) (shp b) ax (dat a) Panic
  | UB => lanewise h (shp a) (shp b) ax (dat a) UB
  end.
Proof.
  intros Hf Hb (Sa & Sb & Ea & Eb & R) Ho. unfold apply_along_axis. rewrite Sa, Sb. cbn [assertb bind].
  rewrite (proj2 (check_ok a l1 ax) Ea), (proj2 (check_ok b l2 ax) Eb). cbn [bind].
  destruct (nth_error_axlen _ _ _ Ea) as [Ha La]. destruct (nth_error_axlen _ _ _ Eb) as [Hbx Lb].
  unfold usub, ndim. destruct (Nat.leb_spec 1 (length (shp a))); [|lia]. cbn [bind].
  rewrite (proj2 (list_eqb_eq _ _) R). cbn [assertb bind].
  destruct (order_in _ _ Ho) as [Hin ND].
  assert (Hf' : acts_as f (axlen (shp a) ax) (axlen (shp b) ax) h) by (rewrite La, Lb; auto).
  destruct (ax =? length (shp a) - 1).
  - pose proof (serial_direct f h (shp a) (shp b) ax (dat a) Hf' Hbx order (fun j => proj1 (Hin j)) ND (dat b) Hb) as W.
    destruct (for_each order _ _) as [out| |]; cbn [bind dat shp std lanewise] in *.
    + destruct W as (W1 & W2 & _). repeat split; auto. intros; apply W2, Hin; auto.
    + destruct W as (j & Hj & E). exists j. split; auto. apply Hin; auto.
    + destruct W as (j & Hj & E). exists j. split; auto. apply Hin; auto.
  - unfold extent, rd. rewrite Eb. cbn [bind].
    pose proof (serial_scratch f h (shp a) (shp b) ax (dat a) Hf' Hbx order (fun j => proj1 (Hin j)) ND (dat b)
       (repeat zero l2) Hb (eq_trans (repeat_length _ _) (eq_sym Lb))) as W.
    destruct (for_each order _ _) as [[out s]| |]; cbn [bind fst dat shp std lanewise] in *.
    + destruct W as (W1 & W2 & _). repeat split; auto. intros; apply W2, Hin; auto.
    + destruct W as (j & Hj & E). exists j. split; auto. apply Hin; auto.
    + destruct W as (j & Hj & E). exists j. split; auto. apply Hin; auto.
Qed.

(** gradient_inplace is the same function. *)
Lemma gradient_apply order a b ax :
  gradient_along_axis zero f l1 l2 order a b ax = apply_along_axis zero f l1 l2 order a b ax.
Proof.
  unfold gradient_along_axis, apply_along_axis.
  destruct (std a); [|reflexivity]. destruct (std b); [|reflexivity]. cbn [assertb bind].
  destruct (check_array_axis a l1 ax) as [[]| |] eqn:Ca; cbn [bind]; auto.
  destruct (check_array_axis b l2 ax) as [[]| |] eqn:Cb; cbn [bind]; auto.
  apply check_ok in Ca. apply check_ok in Cb.
  destruct (nth_error_axlen _ _ _ Ca) as [Ha La]. destruct (nth_error_axlen _ _ _ Cb) as [Hbx Lb].
  unfold usub, ndim. destruct (Nat.leb_spec 1 (length (shp a))); [|lia]. destruct (Nat.leb_spec 1 (length (shp b))); [|lia].
  cbn [bind].
  destruct (Nat.eq_dec (length (shp a)) (length (shp b))) as [E|N].
  - rewrite E. destruct (Nat.eqb_spec ax (length (shp b) - 1)) as [->|]; auto.
  - assert (X : forall i j, i < length (shp a) -> j < length (shp b) -> list_eqb (rm_axis (shp a) i) (rm_axis (shp b) j) = false).
    { intros i j Hi Hj. destruct (list_eqb _ _) eqn:E; auto. apply list_eqb_eq in E. apply (f_equal (@length nat)) in E.
      rewrite !rm_axis_length in E by auto. lia. }
    rewrite !X by lia. cbn [assertb bind]. unfold extent, rd. rewrite Cb. cbn [bind].
    destruct (ax =? _); destruct (ax =? _); auto.
Qed.

Definition par_pre (a : arr T1) (b : arr T2) (ax : nat) : res (nat * nat) :=
  assertb (std a) ;; assertb (std b) ;; check_array_axis a l1 ax ;; check_array_axis b l2 ax ;;
  let* o := usub (ndim a) 1 in let* n := extent b ax in
  assertb (list_eqb (rm_axis (shp a) ax) (rm_axis (shp b) ax)) ;; Ok (o, n).
Lemma par_pre_cases a b ax :
  (fits l1 l2 a b ax /\ par_pre a b ax = Ok (length (shp a) - 1, l2)) \/ (~ fits l1 l2 a b ax /\ par_pre a b ax = Panic).
Proof.
  unfold par_pre, fits. destruct (std a); [|right; split; [intros [? ?]; discriminate|reflexivity]].
  destruct (std b); [|right; split; [intros (_ & ? & _); discriminate|reflexivity]]. cbn [assertb bind].
  destruct (nth_error (shp a) ax) as [la|] eqn:Ea.
  2:{ right. split. intros (_ & _ & ? & _); discriminate. rewrite check_no; auto. congruence. }
  destruct (nth_error (shp b) ax) as [lb|] eqn:Eb.
  2:{ right. split. intros (_ & _ & _ & ? & _); discriminate. destruct (Nat.eq_dec la l1) as [->|].
      rewrite (proj2 (check_ok a l1 ax)) by auto. cbn [bind]. rewrite check_no; auto; congruence. rewrite check_no; auto. congruence. }
  destruct (Nat.eq_dec la l1) as [->|].
  2:{ right. split. intros (_ & _ & E & _); congruence. rewrite check_no; auto. congruence. }
  rewrite (proj2 (check_ok a l1 ax)) by auto. cbn [bind].
  destruct (Nat.eq_dec lb l2) as [->|].
  2:{ right. split. intros (_ & _ & _ & E & _); congruence. rewrite check_no; auto. congruence. }
  rewrite (proj2 (check_ok b l2 ax)) by auto. cbn [bind].
  destruct (nth_error_axlen _ _ _ Ea) as [Ha La]. unfold usub, ndim. destruct (Nat.leb_spec 1 (length (shp a))); [|lia]. cbn [bind].
  unfold extent, rd. rewrite Eb. cbn [bind].
  destruct (list_eqb _ _) eqn:E.
  - left. apply list_eqb_eq in E. split; [repeat split; auto|reflexivity].
  - right. split; [|reflexivity]. intros (_ & _ & _ & _ & X). apply list_eqb_eq in X. congruence.
Qed.

Lemma par_no_fit impl a b ax r : ~ fits l1 l2 a b ax -> (par_apply_along_axis zero f impl l1 l2 a b ax r <-> r = Panic).
Proof.
  intros N. unfold par_apply_along_axis. fold (par_pre a b ax).
  destruct (par_pre_cases a b ax) as [[F _]|[_ E]]; [contradiction|]. rewrite E. tauto.
Qed.

Lemma scratch_task_run h x y : acts_as f l1 l2 h -> length x = l1 -> length y = l2 ->
  prun (scratch_task zero f l2 x) y = h x.
Proof.
  intros Hf Hx Hy. unfold scratch_task. destruct (Hf x (repeat zero l2)) as [E1 E2]; auto. apply repeat_length.
  rewrite E1. destruct (h x) as [s| |]; try reflexivity. specialize (E2 _ eq_refl).
  rewrite firstn_all2 by lia. apply copy_prog_full; auto. congruence.
Qed.

Lemma par_fit h impl a b ax r : acts_as f l1 l2 h -> implements l1 l2 impl f -> wf b -> fits l1 l2 a b ax ->
  par_apply_along_axis zero f impl l1 l2 a b ax r ->
  match r with
  | Ok b' => shp b' = shp b /\ std b' = true /\ lanewise h (shp a) (shp b) ax (dat a) (Ok (dat b'))
  | Panic => lanewise h (shp a) (shp b) ax (dat a) Panic
  | UB => lanewise h (shp a) (shp b) ax (dat a) UB
  end.
Proof.
  intros Hf Hi Hb F. unfold par_apply_along_axis. fold (par_pre a b ax).
  destruct (par_pre_cases a b ax) as [[_ E]|[N _]]; [|contradiction]. rewrite E.
  destruct F as (Sa & Sb & Ea & Eb & R).
  destruct (nth_error_axlen _ _ _ Ea) as [Ha La]. destruct (nth_error_axlen _ _ _ Eb) as [Hbx Lb].
  set (task := fun x => if ax =? length (shp a) - 1 then impl x else scratch_task zero f l2 x).
  intros (ro & He & ->).
  assert (HT : forall x y, length x = l1 -> length y = l2 -> prun (task x) y = h x).
  { intros x y Hx Hy. unfold task. destruct (ax =? _). rewrite Hi by auto. apply Hf; auto. apply scratch_task_run; auto. }
  pose proof (par_exec_lanes (shp b) ax Hbx _ _ He) as W. cbn [fst snd] in W.
  rewrite map_length, seq_length in W. specialize (W eq_refl Hb (fun j => h (lane (shp a) ax (dat a) j))).
  assert (W' : forall (j : nat) (p : prog T2),
      nth_error (map (fun j : nat => task (lane (shp a) ax (dat a) j)) (seq 0 (nlanes (shp b) ax))) j = Some p ->
      prun p (lane (shp b) ax (dat b) j) = h (lane (shp a) ax (dat a) j)).
  { intros j p Hp. destruct (Nat.lt_ge_cases j (nlanes (shp b) ax)) as [L|L].
    - rewrite (map_nth_error _ _ _ (d := j)) in Hp.
      + inversion Hp. apply HT; rewrite lane_length; auto.
      + rewrite (nth_error_nth' _ 0) by (rewrite seq_length; auto). rewrite seq_nth; auto.
    - assert (nth_error (map (fun j : nat => task (lane (shp a) ax (dat a) j)) (seq 0 (nlanes (shp b) ax))) j = None).
      { apply nth_error_None. rewrite map_length, seq_length. auto. } congruence. }
  specialize (W W'). destruct ro as [out| |]; cbn [bind shp std dat]; cbn [lanewise]; auto.
Qed.

Lemma par_total impl a b ax : exists r, par_apply_along_axis zero f impl l1 l2 a b ax r.
Proof.
  unfold par_apply_along_axis. fold (par_pre a b ax). destruct (par_pre_cases a b ax) as [[_ E]|[_ E]]; rewrite E; eauto.
  destruct (par_exec_total (shp b) ax (map (fun j => (fun x => if ax =? length (shp a) - 1 then impl x else scratch_task zero f l2 x)
     (lane (shp a) ax (dat a) j)) (seq 0 (nlanes (shp b) ax)), dat b)) as [ro Hr].
  eexists. exists ro. split; [exact Hr|reflexivity].
Qed.

Lemma par_gradient_apply impl a b ax r :
  par_gradient_along_axis zero f impl l1 l2 a b ax r <-> par_apply_along_axis zero f impl l1 l2 a b ax r.
Proof.
  unfold par_gradient_along_axis, par_apply_along_axis. fold (par_pre a b ax).
  destruct (par_pre_cases a b ax) as [[F E]|[N E]]; rewrite E.
  - destruct F as (Sa & Sb & Ea & Eb & R). rewrite Sa, Sb. cbn [assertb bind].
    rewrite (proj2 (check_ok a l1 ax) Ea), (proj2 (check_ok b l2 ax) Eb). cbn [bind].
    destruct (nth_error_axlen _ _ _ Ea) as [Ha La]. destruct (nth_error_axlen _ _ _ Eb) as [Hbx Lb].
    assert (EL : length (shp a) = length (shp b)).
    { apply (f_equal (@length nat)) in R. rewrite !rm_axis_length in R by auto. lia. }
    unfold usub, ndim. destruct (Nat.leb_spec 1 (length (shp b))); [|lia]. cbn [bind]. rewrite EL.
    destruct (Nat.eqb_spec ax (length (shp b) - 1)) as [->|].
    + rewrite (proj2 (list_eqb_eq _ _) R). cbn [assertb bind]. tauto.
    + unfold extent, rd. rewrite Eb. cbn [bind]. rewrite (proj2 (list_eqb_eq _ _) R). cbn [assertb bind]. tauto.
  - clear E. unfold fits in N.
    destruct (std a) eqn:Sa; [|cbn; tauto]. destruct (std b) eqn:Sb; [|cbn; tauto]. cbn [assertb bind].
    destruct (check_array_axis a l1 ax) as [[]| |] eqn:Ca; cbn [bind]; [|tauto|].
    2:{ exfalso. unfold check_array_axis, extent, rd in Ca. destruct (nth_error (shp a) ax); cbn in Ca; try discriminate.
        destruct (_ =? _); discriminate. }
    apply check_ok in Ca.
    destruct (check_array_axis b l2 ax) as [[]| |] eqn:Cb; cbn [bind]; [|tauto|].
    2:{ exfalso. unfold check_array_axis, extent, rd in Cb. destruct (nth_error (shp b) ax); cbn in Cb; try discriminate.
        destruct (_ =? _); discriminate. }
    apply check_ok in Cb.
    destruct (nth_error_axlen _ _ _ Ca) as [Ha La]. destruct (nth_error_axlen _ _ _ Cb) as [Hbx Lb].
    unfold usub, ndim. destruct (Nat.leb_spec 1 (length (shp b))); [|lia]. cbn [bind].
    assert (NE : rm_axis (shp a) ax <> rm_axis (shp b) ax) by tauto.
    destruct (Nat.eqb_spec ax (length (shp b) - 1)) as [Ex|].
    + destruct (list_eqb _ _) eqn:E; [|cbn; tauto]. apply list_eqb_eq in E. exfalso.
      assert (EL : length (shp a) = length (shp b)).
      { apply (f_equal (@length nat)) in E. rewrite !rm_axis_length in E by lia. lia. }
      rewrite EL in E. rewrite <- Ex in E. auto.
    + unfold extent, rd. rewrite Cb. cbn [bind]. destruct (list_eqb _ _) eqn:E; [|cbn; tauto].
      apply list_eqb_eq in E. contradiction.
Qed.

(** Determinism: two successful outcomes agree. *)
Lemma lanewise_det (h : list T1 -> res (list T2)) si so ax din (o1 o2 : list T2) : ax < length so -> lanewise h si so ax din (Ok o1) -> lanewise h si so ax din (Ok o2) -> o1 = o2.
Proof.
  intros Hax [L1 E1] [L2 E2]. eapply lanes_ext; eauto. intros j Hj. pose proof (E1 j Hj). pose proof (E2 j Hj). congruence.
Qed.
End Apply.

(** ** Multi-index form *)
Section Multi.
Context {T : Type} {d : Dflt T}.
(** element of an array at a multi-index *)
Definition get (a : arr T) (idx : list nat) : T := (dat a).[ravel (shp a) idx].
(** the 1-D line through an array obtained by letting the index at position
    [length pre] run while all others are fixed *)
Definition line (a : arr T) (pre post : list nat) : list T :=
  map (fun k => get a (pre ++ k :: post)) (seq 0 (axlen (shp a) (length pre))).
Lemma line_lane a pre post : length pre < length (shp a) -> valid (rm_axis (shp a) (length pre)) (pre ++ post) ->
  line a pre post = lane (shp a) (length pre) (dat a) (ravel (rm_axis (shp a) (length pre)) (pre ++ post)).
Proof.
  intros Hax V. unfold line, lane. apply map_ext_in. intros k Hk. apply in_seq in Hk. unfold get.
  destruct (ravel_lidx (shp a) (length pre) pre k post) as [E _]; [auto|auto| |rewrite E; auto].
  { rewrite (shape_split _ _ Hax) at 1. unfold rm_axis in V.
    assert (Lf : length (firstn (length pre) (shp a)) = length pre) by (apply firstn_length_le; lia).
    assert (Hs : valid (firstn (length pre) (shp a)) pre /\ valid (skipn (S (length pre)) (shp a)) post).
    { revert V Lf. generalize (firstn (length pre) (shp a)) (skipn (S (length pre)) (shp a)). clear.
      intros s1 s2. revert pre. induction s1 as [|n s1 IH]; intros [|i pre] V L; cbn in L; try lia.
      - split; auto. constructor.
      - inversion V; subst. destruct (IH pre); auto. split; auto. constructor; auto. }
    apply valid_app. apply Hs. constructor. lia. apply Hs. }
Qed.
End Multi.
(** every lane number comes from a multi-index *)
Lemma unravel sh : forall j, j < size sh -> exists idx, valid sh idx /\ ravel sh idx = j.
Proof.
  induction sh as [|n sh IH]; intros j Hj; cbn in Hj.
  - exists []. split. constructor. cbn. lia.
  - fold (size sh) in Hj. assert (Hs : size sh <> 0) by nia.
    destruct (IH (j mod size sh)) as (idx & V & E). apply Nat.mod_upper_bound; auto.
    exists (j / size sh :: idx). split. constructor; auto. apply Nat.div_lt_upper_bound; nia.
    cbn. fold (size sh). rewrite E. pose proof (Nat.div_mod j (size sh) Hs). lia.
Qed.
