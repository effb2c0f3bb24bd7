(** Generic facts about the axis-wise methods, for a slice method that is
    [uniform] (LibBase.v) or arbitrary. *)
From Coq Require Import List Arith Lia Bool ZArith Reals Lra Permutation.
From Verif Require Import Base Num NdArray NdArrayFacts AxisFacts Bases BaseLin LibBase.
Import ListNotations.
Local Open Scope nat_scope.

(** ** Specification vocabulary *)
(** [r] is the result of applying the 1-D operation [f] to every line of [a]
    along axis [ax]: same shape as the output [o], and for every choice of the
    other indices (before: [pre], after: [post]) the line of [r] is what [f]
    computes from the line of [a]; the call fails the way some line fails. *)
Definition along_axis {T1 T2} {d1 : Dflt T1} {d2 : Dflt T2} (f : list T1 -> list T2 -> res (list T2)) (ax : nat)
    (a : arr T1) (o : arr T2) (r : res (arr T2)) : Prop :=
  match r with
  | Ok b => shp b = shp o /\ std b = true /\ wf b /\
      forall pre post, length pre = ax -> valid (rm_axis (shp o) ax) (pre ++ post) ->
        f (line a pre post) (line o pre post) = Ok (line b pre post)
  | Panic => exists pre post, length pre = ax /\ valid (rm_axis (shp o) ax) (pre ++ post) /\
        f (line a pre post) (line o pre post) = Panic
  | UB => exists pre post, length pre = ax /\ valid (rm_axis (shp o) ax) (pre ++ post) /\
        f (line a pre post) (line o pre post) = UB
  end.

Section Gen.
Context {T1 T2 : Type} {V1 : Vec R T1} {V2 : Vec R T2} {d1 : Dflt T1} {d2 : Dflt T2}.
Implicit Type f : list T1 -> list T2 -> res (list T2).

Lemma uniform_acts f l1 l2 : uniform f l1 l2 -> exists h, acts_as f l1 l2 h /\
  ((exists g, linear_on l1 g /\ forall x, h x = Ok (g x)) \/ (forall x, h x = Panic) \/ (forall x, h x = UB)).
Proof.
  intros [(g & C & Lg)|[H|H]].
  - exists (fun x => Ok (g x)). split.
    + intros x y Hx Hy. destruct (C x y Hx Hy) as [-> L]. split; auto. intros z E. inversion E; subst; auto.
    + left. exists g. auto.
  - exists (fun _ => Panic). split; auto. intros x y Hx Hy. split; auto. discriminate.
  - exists (fun _ => UB). split; auto. intros x y Hx Hy. split; auto. discriminate.
Qed.

Lemma line_length {T} {d : Dflt T} (a : arr T) pre post : length (line a pre post) = axlen (shp a) (length pre).
Proof. unfold line. rewrite map_length, seq_length. auto. Qed.

Lemma firstn_app_exact {X} (a b : list X) : firstn (length a) (a ++ b) = a.
Proof. rewrite firstn_app, Nat.sub_diag, firstn_O, app_nil_r. apply firstn_all. Qed.

(** lane numbers and the remaining indices *)
Lemma lane_idx sh ax j : ax < length sh -> j < nlanes sh ax ->
  exists pre post, length pre = ax /\ valid (rm_axis sh ax) (pre ++ post) /\ ravel (rm_axis sh ax) (pre ++ post) = j.
Proof.
  intros Hax Hj. rewrite nlanes_rm in Hj. destruct (unravel _ _ Hj) as (idx & V & E).
  pose proof (valid_len _ _ V) as Lv. rewrite rm_axis_length in Lv by auto.
  exists (firstn ax idx), (skipn ax idx). rewrite firstn_skipn, firstn_length_le by lia. auto.
Qed.

Lemma lanewise_along f l1 l2 h ax (a : arr T1) (o : arr T2) r : acts_as f l1 l2 h -> fits l1 l2 a o ax ->
  match r with
  | Ok b => shp b = shp o /\ std b = true /\ lanewise h (shp a) (shp o) ax (dat a) (Ok (dat b))
  | Panic => lanewise h (shp a) (shp o) ax (dat a) Panic
  | UB => lanewise h (shp a) (shp o) ax (dat a) UB
  end -> along_axis f ax a o r.
Proof.
  intros Hf (Sa & So & Ea & Eo & R) H.
  destruct (nth_error_axlen _ _ _ Ea) as [Ha La]. destruct (nth_error_axlen _ _ _ Eo) as [Hox Lo].
  assert (F : forall pre post, length pre = ax -> valid (rm_axis (shp o) ax) (pre ++ post) ->
     f (line a pre post) (line o pre post) = h (lane (shp a) ax (dat a) (ravel (rm_axis (shp o) ax) (pre ++ post)))).
  { intros pre post Hp Hv. subst ax. rewrite (line_lane a) by (rewrite ?R; auto). rewrite R.
    apply Hf. rewrite lane_length; auto. rewrite line_length; auto. }
  destruct r as [b| |]; cbn [along_axis lanewise] in *.
  - destruct H as (Sb & Stb & Lb & H). repeat split; auto. unfold wf. rewrite Sb; auto.
    intros pre post Hp Hv. rewrite F by auto. subst ax. rewrite (line_lane b) by (rewrite Sb; auto). rewrite Sb.
    apply H. rewrite nlanes_rm. apply ravel_lt; auto.
  - destruct H as (j & Hj & E). destruct (lane_idx (shp o) ax j Hox Hj) as (pre & post & Hp & Hv & Er).
    exists pre, post. repeat split; auto. rewrite F by auto. rewrite Er; auto.
  - destruct H as (j & Hj & E). destruct (lane_idx (shp o) ax j Hox Hj) as (pre & post & Hp & Hv & Er).
    exists pre, post. repeat split; auto. rewrite F by auto. rewrite Er; auto.
Qed.

(** C25, serial *)
Lemma apply_along zero f l1 l2 order a o ax : uniform f l1 l2 -> wf o -> fits l1 l2 a o ax ->
  Permutation order (seq 0 (nlanes (shp o) ax)) ->
  along_axis f ax a o (apply_along_axis zero f l1 l2 order a o ax).
Proof.
  intros U Ho F Hp. destruct (uniform_acts f l1 l2 U) as (h & Hh & _).
  eapply lanewise_along; eauto. apply apply_fit; auto.
Qed.
Lemma par_along zero f impl l1 l2 a o ax r : uniform f l1 l2 -> implements l1 l2 impl f -> wf o -> fits l1 l2 a o ax ->
  par_apply_along_axis zero f impl l1 l2 a o ax r -> along_axis f ax a o r.
Proof.
  intros U Hi Ho F Hp. destruct (uniform_acts f l1 l2 U) as (h & Hh & _).
  eapply lanewise_along; eauto. eapply par_fit; eauto.
Qed.

Lemma arr_eq {T} (a b : arr T) : shp a = shp b -> std a = std b -> dat a = dat b -> a = b.
Proof. destruct a, b; cbn; intros; subst; auto. Qed.

(** two outcomes, each satisfying the conclusion of apply_fit/par_fit, agree *)
Lemma same_outcome (h : list T1 -> res (list T2)) l1 si so ax din (r r' : res (arr T2)) : ax < length so ->
  ((exists g, linear_on l1 g /\ forall x, h x = Ok (g x)) \/ (forall x, h x = Panic) \/ (forall x, h x = UB)) ->
  match r with
  | Ok b => shp b = so /\ std b = true /\ lanewise h si so ax din (Ok (dat b))
  | Panic => lanewise h si so ax din Panic
  | UB => lanewise h si so ax din UB
  end ->
  match r' with
  | Ok b => shp b = so /\ std b = true /\ lanewise h si so ax din (Ok (dat b))
  | Panic => lanewise h si so ax din Panic
  | UB => lanewise h si so ax din UB
  end -> r = r'.
Proof.
  intros Hax U H H'.
  destruct r as [b| |], r' as [b'| |]; auto.
  - destruct H as (S & St & W), H' as (S' & St' & W'). f_equal. apply arr_eq; try congruence.
    apply (lanewise_det h si so ax din); auto.
  - exfalso. destruct H as (_ & _ & _ & W), H' as (j & Hj & E). specialize (W j Hj). congruence.
  - exfalso. destruct H as (_ & _ & _ & W), H' as (j & Hj & E). specialize (W j Hj). congruence.
  - exfalso. destruct H' as (_ & _ & _ & W), H as (j & Hj & E). specialize (W j Hj). congruence.
  - exfalso. destruct H as (j & Hj & E), H' as (j' & Hj' & E').
    destruct U as [(g & _ & U)|[U|U]]; rewrite U in E; rewrite U in E'; discriminate.
  - exfalso. destruct H' as (_ & _ & _ & W), H as (j & Hj & E). specialize (W j Hj). congruence.
  - exfalso. destruct H as (j & Hj & E), H' as (j' & Hj' & E').
    destruct U as [(g & _ & U)|[U|U]]; rewrite U in E; rewrite U in E'; discriminate.
Qed.

(** C28 *)
Lemma apply_indep zero zero' f l1 l2 order order' a o o' ax : uniform f l1 l2 -> wf o -> wf o' ->
  shp o = shp o' -> std o = std o' ->
  Permutation order (seq 0 (nlanes (shp o) ax)) -> Permutation order' (seq 0 (nlanes (shp o') ax)) ->
  apply_along_axis zero f l1 l2 order a o ax = apply_along_axis zero' f l1 l2 order' a o' ax.
Proof.
  intros U Ho Ho' Es Et Hp Hp'. destruct (fits_dec l1 l2 a o ax) as [F|N].
  - assert (F' : fits l1 l2 a o' ax) by (unfold fits in *; rewrite <- Es, <- Et; auto).
    destruct (uniform_acts f l1 l2 U) as (h & Hh & Hu).
    apply (same_outcome h l1 (shp a) (shp o) ax (dat a)); auto.
    + destruct F as (_ & _ & _ & Eo & _). apply (nth_error_axlen _ _ _ Eo).
    + apply apply_fit; auto.
    + rewrite Es. apply apply_fit; auto.
  - rewrite !apply_no_fit; auto. unfold fits in *. rewrite <- Es, <- Et. auto.
Qed.

(** C26 *)
Lemma par_serial zero zero' f impl l1 l2 order a o ax r : uniform f l1 l2 -> implements l1 l2 impl f -> wf o ->
  Permutation order (seq 0 (nlanes (shp o) ax)) ->
  (par_apply_along_axis zero f impl l1 l2 a o ax r <-> r = apply_along_axis zero' f l1 l2 order a o ax).
Proof.
  intros U Hi Ho Hp.
  assert (K : forall r, par_apply_along_axis zero f impl l1 l2 a o ax r -> r = apply_along_axis zero' f l1 l2 order a o ax).
  { intros r0 H. destruct (fits_dec l1 l2 a o ax) as [F|N].
    - destruct (uniform_acts f l1 l2 U) as (h & Hh & Hu).
      apply (same_outcome h l1 (shp a) (shp o) ax (dat a)); auto.
      + destruct F as (_ & _ & _ & Eo & _). apply (nth_error_axlen _ _ _ Eo).
      + eapply par_fit; eauto.
      + apply apply_fit; auto.
    - rewrite apply_no_fit by auto. apply (proj1 (par_no_fit zero f l1 l2 impl a o ax r0 N)); auto. }
  split; auto. intros ->. destruct (par_total zero f l1 l2 impl a o ax) as [r0 Hr]. rewrite <- (K _ Hr). auto.
Qed.

(** C27 *)
Lemma apply_fits_ok zero f l1 l2 order a o ax : linop f l1 l2 -> wf o -> fits l1 l2 a o ax ->
  Permutation order (seq 0 (nlanes (shp o) ax)) ->
  exists b, apply_along_axis zero f l1 l2 order a o ax = Ok b.
Proof.
  intros U Ho F Hp. pose proof (apply_along zero f l1 l2 order a o ax (or_introl U) Ho F Hp) as H.
  destruct U as (g & C & _). destruct F as (Sa & So & Ea & Eo & R).
  destruct (nth_error_axlen _ _ _ Ea) as [Ha La]. destruct (nth_error_axlen _ _ _ Eo) as [Hox Lo].
  destruct (apply_along_axis zero f l1 l2 order a o ax) as [b| |]; eauto; cbn [along_axis] in H;
    destruct H as (pre & post & Hp' & _ & E); exfalso; subst ax; edestruct (C (line a pre post) (line o pre post)) as [Ex _];
    rewrite ?line_length; auto; congruence.
Qed.
End Gen.

(** ** Linear combinations of arrays *)
Section ArrLin.
Context {T : Type} {V : Vec R T}.
Definition lin (al : R) (x : list T) (be : R) (y : list T) : list T := ladd (lscal x al) (lscal y be).
Definition alin (al : R) (x : arr T) (be : R) (y : arr T) : arr T :=
  mk_arr (shp x) (std x) (lin al (dat x) be (dat y)).
Lemma lin_length al x be y : length x = length y -> length (lin al x be y) = length x.
Proof. intros. unfold lin. rewrite ladd_length; rewrite !lscal_length; auto. Qed.
Lemma nth_lin al x be y i d dx dy : length x = length y -> i < length x ->
  nth i (lin al x be y) d = vadd (vmul (nth i x dx) al) (vmul (nth i y dy) be).
Proof.
  intros E H. unfold lin, ladd, lscal. revert y i E H.
  induction x as [|a x IH]; intros [|b y] [|i] E H; cbn in *; try lia; auto.
  apply IH; lia.
Qed.
Lemma lane_lin {d : Dflt T} sh ax al x be y j : ax < length sh -> length x = size sh -> length y = size sh -> j < nlanes sh ax ->
  lane sh ax (lin al x be y) j = lin al (lane sh ax x j) be (lane sh ax y j).
Proof.
  intros Hax Lx Ly Hj. apply (nth_ext _ _ dflt dflt).
  - rewrite lin_length by (rewrite !lane_length; auto). rewrite !lane_length; auto.
  - rewrite lane_length. intros k Hk. change (nth k (lane sh ax (lin al x be y) j) dflt) with (lane sh ax (lin al x be y) j).[k].
    rewrite lane_at by auto. rewrite (nth_lin _ _ _ _ k dflt dflt dflt) by (rewrite ?lane_length; auto).
    change (nth k (lane sh ax x j) dflt) with (lane sh ax x j).[k]. change (nth k (lane sh ax y j) dflt) with (lane sh ax y j).[k].
    rewrite !lane_at by auto. unfold at_. apply nth_lin. congruence. rewrite Lx. apply lidx_lt; auto.
Qed.
End ArrLin.

Section ArrLin2.
Context {T1 T2 : Type} {V1 : Vec R T1} {V2 : Vec R T2} {d1 : Dflt T1} {d2 : Dflt T2}.
Lemma linear_lin l1 (g : list T1 -> list T2) al x be y : linear_on l1 g -> length x = l1 -> length y = l1 ->
  g (lin al x be y) = lin al (g x) be (g y).
Proof. intros [A S] Hx Hy. unfold lin. rewrite A by (rewrite lscal_length; auto). rewrite !S by auto. auto. Qed.

Lemma apply_linear zero f l1 l2 zo1 zo2 zo3 (a a' : arr T1) (o1 o2 o3 b b' : arr T2) ax al be : uniform f l1 l2 ->
  wf a -> wf a' -> wf o1 -> wf o2 -> wf o3 -> shp a = shp a' -> shp o1 = shp o3 -> shp o2 = shp o3 -> std o3 = true ->
  Permutation zo1 (seq 0 (nlanes (shp o1) ax)) -> Permutation zo2 (seq 0 (nlanes (shp o2) ax)) ->
  Permutation zo3 (seq 0 (nlanes (shp o3) ax)) ->
  apply_along_axis zero f l1 l2 zo1 a o1 ax = Ok b -> apply_along_axis zero f l1 l2 zo2 a' o2 ax = Ok b' ->
  apply_along_axis zero f l1 l2 zo3 (alin al a be a') o3 ax = Ok (alin al b be b').
Proof.
  intros U Wa Wa' W1 W2 W3 Ea E1 E2 S3 P1 P2 P3 H1 H2.
  assert (F1 : fits l1 l2 a o1 ax).
  { destruct (fits_dec l1 l2 a o1 ax); auto. rewrite apply_no_fit in H1; auto. discriminate. }
  assert (F2 : fits l1 l2 a' o2 ax).
  { destruct (fits_dec l1 l2 a' o2 ax); auto. rewrite apply_no_fit in H2; auto. discriminate. }
  assert (F3 : fits l1 l2 (alin al a be a') o3 ax).
  { destruct F1 as (Sa & So & X). split. exact Sa. split. exact S3. cbn [shp alin]. rewrite <- E1. exact X. }
  destruct (uniform_acts f l1 l2 U) as (h & Hh & Hu).
  pose proof (apply_fit zero f l1 l2 h zo1 a o1 ax Hh W1 F1 P1) as K1. rewrite H1 in K1.
  pose proof (apply_fit zero f l1 l2 h zo2 a' o2 ax Hh W2 F2 P2) as K2. rewrite H2 in K2.
  pose proof (apply_fit zero f l1 l2 h zo3 _ o3 ax Hh W3 F3 P3) as K3.
  eapply (same_outcome h l1 (shp a) (shp o3) ax (dat (alin al a be a'))); [| |exact K3|]; auto.
  { destruct F3 as (_ & _ & _ & Eo & _). apply (nth_error_axlen _ _ _ Eo). }
  destruct K1 as (Sb & Tb & Lb & K1), K2 as (Sb' & Tb' & Lb' & K2). cbn [alin shp std dat lanewise].
  rewrite Sb, Tb, E1 in *. rewrite E2 in *. repeat split; auto.
  { rewrite lin_length; congruence. }
  intros j Hj.
  assert (Hox : ax < length (shp o3)) by (destruct F3 as (_ & _ & _ & Eo & _); apply (nth_error_axlen _ _ _ Eo)).
  destruct F1 as (_ & _ & Ea1 & _ & R). destruct (nth_error_axlen _ _ _ Ea1) as [Ha La].
  assert (Hj' : j < nlanes (shp a) ax) by (rewrite nlanes_rm, R, <- nlanes_rm; auto; congruence).
  specialize (K1 j Hj). specialize (K2 j Hj). unfold wf in *.
  rewrite (lane_lin (shp a)), (lane_lin (shp o3)); auto; try congruence.
  rewrite <- Ea in K2.
  destruct Hu as [(g & Lg & Hg)|[Hg|Hg]]; try congruence. rewrite Hg in K1, K2 |- *.
  inversion K1. inversion K2. f_equal. apply (linear_lin l1); auto; rewrite lane_length; auto.
Qed.
End ArrLin2.

(** ** Every length-preserving slice method is implemented by some program of
    memory accesses (so the hypotheses of the parallel theorems can be met). *)
Fixpoint read_all {T} (k n : nat) (acc : list T) (c : list T -> prog T) : prog T :=
  match n with
  | 0 => c acc
  | S n => PRd k (fun v => read_all (S k) n (acc ++ [v]) c)
  end.
Definition impl_of {T1 T2} (l2 : nat) (f : list T1 -> list T2 -> res (list T2)) (x : list T1) : prog T2 :=
  read_all 0 l2 [] (fun y => match f x y with Ok z => copy_prog 0 z | Panic => PFail Panic | UB => PFail UB end).
Lemma read_all_run {T} (y : list T) c : forall n k acc, k + n = length y -> acc = firstn k y ->
  prun (read_all k n acc c) y = prun (c y) y.
Proof.
  intros n. induction n as [|n IH]; intros k acc E Ha; cbn [read_all prun].
  - subst acc. rewrite firstn_all2 by lia. auto.
  - destruct (nth_error y k) as [v|] eqn:Ev.
    + apply IH. lia. subst acc. clear -Ev. revert y Ev. induction k as [|k IH]; intros [|a y] Ev; cbn in *; try discriminate.
      inversion Ev; auto. f_equal. apply IH; auto.
    + apply nth_error_None in Ev. lia.
Qed.
Lemma impl_of_ok {T1 T2} {V1 : Vec R T1} {V2 : Vec R T2} (f : list T1 -> list T2 -> res (list T2)) l1 l2 :
  uniform f l1 l2 -> implements l1 l2 (impl_of l2 f) f.
Proof.
  intros U x y Hx Hy. unfold impl_of. rewrite read_all_run by auto.
  destruct U as [(g & C & _)|[U|U]].
  - destruct (C x y Hx Hy) as [-> L]. apply copy_prog_full; auto. congruence.
  - rewrite U by auto. reflexivity.
  - rewrite U by auto. reflexivity.
Qed.
