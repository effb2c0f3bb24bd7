(** Rounding errors along the axes of an array: if the 1-D transforms of the
    bases are accurate, so are the round trips of arrays with one base per axis
    (C56).  Values are complex numbers; a real number x is (x, 0). *)
From Coq Require Import List Arith ZArith Reals Bool Lra Lia.
From Verif Require Import Base Num Fourier FourierFacts RndFft PropRound RndFinite2.
Import ListNotations.
Local Open Scope R_scope.

(** What it is for a number of type T to be finite, and its value. *)
Record fel (T : Type) : Type := mk_fel { ef : T -> Prop; ev : T -> CR }.
Arguments mk_fel {T}. Arguments ef {T}. Arguments ev {T}.

(** The slice operation [f] computes [F] up to [al] times the size of its input
    plus [be], on finite inputs of size at most [R]. *)
Definition near {T1 T2} (f : list T1 -> list T2 -> res (list T2)) (l1 l2 : nat) (e1 : fel T1) (e2 : fel T2)
    (F : (nat -> CR) -> nat -> CR) (Rg al be : R) : Prop :=
  forall (d1 : Dflt T1) (d2 : Dflt T2) x o, length x = l1 -> length o = l2 -> (forall j, (j < l1)%nat -> ef e1 x.[j]) -> rsum l1 (fun j => cn (ev e1 x.[j])) <= Rg ->
  exists y, f x o = Ok y /\ length y = l2 /\ forall k, (k < l2)%nat -> ef e2 y.[k] /\
    cn (csub (ev e2 y.[k]) (F (fun j => ev e1 x.[j]) k)) <= al * rsum l1 (fun j => cn (ev e1 x.[j])) + be.
(** [F] is linear (as much as is needed) with entries bounded by [K]. *)
Definition bounded (F : (nat -> CR) -> nat -> CR) (l1 l2 : nat) (K : R) : Prop :=
  (forall g h k, (k < l2)%nat -> F (fun j => csub (g j) (h j)) k = csub (F g k) (F h k)) /\
  forall g k, (k < l2)%nat -> cn (F g k) <= K * rsum l1 (fun j => cn (g j)).

Lemma cn_csub a b c : cn (csub a c) <= cn (csub a b) + cn (csub b c).
Proof.
  unfold cn, csub. cbn [fst snd nsub num_R]. pose proof (Rabs_triang (fst a - fst b) (fst b - fst c)) as T1. pose proof (Rabs_triang (snd a - snd b) (snd b - snd c)) as T2.
  replace (fst a - fst b + (fst b - fst c)) with (fst a - fst c) in T1 by ring. replace (snd a - snd b + (snd b - snd c)) with (snd a - snd c) in T2 by ring. lra.
Qed.
Lemma cn_csub_self a : cn (csub a a) = 0.
Proof. unfold cn, csub. cbn [fst snd nsub num_R]. rewrite !Rminus_diag_eq, Rabs_R0 by auto. lra. Qed.
Lemma cn_0 a b : cn (csub a b) <= 0 -> a = b.
Proof.
  unfold cn, csub. cbn [fst snd nsub num_R]. intros H. pose proof (Rabs_pos (fst a - fst b)). pose proof (Rabs_pos (snd a - snd b)).
  assert (Z : forall x, Rabs x <= 0 -> x = 0). { intros x Hx. destruct (Req_dec x 0); auto. pose proof (Rabs_pos_lt x H2). lra. }
  apply ceq; [assert (fst a - fst b = 0) by (apply Z; lra)|assert (snd a - snd b = 0) by (apply Z; lra)]; lra.
Qed.
Lemma bounded_ext F l1 l2 K g h k : bounded F l1 l2 K -> (k < l2)%nat -> (forall j, (j < l1)%nat -> g j = h j) -> F g k = F h k.
Proof.
  intros [B1 B2] Hk H. apply cn_0. rewrite <- B1 by auto. eapply Rle_trans; [apply B2; auto|]. rewrite rsum_0. lra. intros j Hj. rewrite H, cn_csub_self by auto. auto.
Qed.

(** Sums over a finite set of indices. *)
Record isum {P} (D : P -> Prop) (Sg : (P -> R) -> R) (M : R) : Prop := {
  is_le : forall f g, (forall p, D p -> f p <= g p) -> Sg f <= Sg g;
  is_pick : forall f p, D p -> (forall q, D q -> 0 <= f q) -> f p <= Sg f;
  is_const : forall c, Sg (fun _ => c) = M * c;
  is_add : forall f g, Sg (fun p => f p + g p) = Sg f + Sg g;
  is_scal : forall c f, Sg (fun p => c * f p) = c * Sg f;
  is_rsum : forall n f, Sg (fun p => rsum n (fun j => f p j)) = rsum n (fun j => Sg (fun p => f p j)) }.
Lemma isum_unit : isum (fun _ : unit => True) (fun f => f tt) 1.
Proof. split; intros; auto. destruct p; lra. lra. Qed.
Lemma isum_times {P} D Sg M n : isum (P := P) D Sg M ->
  isum (fun q : P * nat => D (fst q) /\ (snd q < n)%nat) (fun f => Sg (fun p => rsum n (fun j => f (p, j)))) (M * INR n).
Proof.
  intros H. split.
  - intros f g L. apply (is_le _ _ _ H). intros p Hp. apply rsum_le. intros j Hj. apply L. auto.
  - intros f [p j] [Hp Hj] L. cbn [fst snd] in *. apply Rle_trans with (rsum n (fun j => f (p, j))).
    + apply (rsum_pick n (fun j => f (p, j))); [intros i Hi; apply L; auto|auto].
    + apply (is_pick _ _ _ H (fun p => rsum n (fun j => f (p, j))) p Hp). intros q Hq. apply rsum_pos. intros i Hi. apply L; auto.
  - intros c. rewrite (rsum_const n c). rewrite (is_const _ _ _ H). ring.
  - intros f g. rewrite <- (is_add _ _ _ H). apply Rle_antisym; apply (is_le _ _ _ H); intros p _; rewrite rsum_add; lra.
  - intros c f. rewrite <- (is_scal _ _ _ H). apply Rle_antisym; apply (is_le _ _ _ H); intros p _; rewrite rsum_scal_l; lra.
  - intros m f. rewrite <- (is_rsum _ _ _ H). apply Rle_antisym; apply (is_le _ _ _ H); intros p _; rewrite (rsum_swap n m (fun j i => f (p, j) i)); lra.
Qed.

(** [Y] is finite and near the target [W] if [X] is finite and of size at most Rg. *)
Definition rt {P T} (D : P -> Prop) (Sg : (P -> R) -> R) (e : fel T) (X Y : P -> T) (W : P -> CR) (Rg er br : R) : Prop :=
  (forall p, D p -> ef e (X p)) -> Sg (fun p => cn (ev e (X p))) <= Rg ->
  forall p, D p -> ef e (Y p) /\ cn (csub (ev e (Y p)) (W p)) <= er * Sg (fun p => cn (ev e (X p))) + br.

Lemma rt_id {P T} D Sg M (e : fel T) X Rg : isum D Sg M -> rt (P := P) D Sg e X X (fun p => ev e (X p)) Rg 0 0.
Proof. intros HS F _ p Hp. split; auto. rewrite cn_csub_self. lra. Qed.

(** One more axis: transform along it, then the round trip along the other axes,
    then transform back along it. *)
Lemma rt_step {P T1 T2} (D : P -> Prop) Sg M (e1 : fel T1) (e2 : fel T2) n m (F B : (nat -> CR) -> nat -> CR) Kf Kb af bf ab bb er br Rg Ri Ro
    (X Y : P -> nat -> T1) (Z Z' : P -> nat -> T2) :
  isum D Sg M -> bounded F n m Kf -> bounded B m n Kb -> 0 <= Kf -> 0 <= Kb -> 0 <= af -> 0 <= bf -> 0 <= ab -> 0 <= er -> 0 <= br -> 0 <= M ->
  (forall p, D p -> (forall j, (j < n)%nat -> ef e1 (X p j)) -> rsum n (fun j => cn (ev e1 (X p j))) <= Rg -> forall k, (k < m)%nat ->
     ef e2 (Z p k) /\ cn (csub (ev e2 (Z p k)) (F (fun j => ev e1 (X p j)) k)) <= af * rsum n (fun j => cn (ev e1 (X p j))) + bf) ->
  (forall k, (k < m)%nat -> rt D Sg e2 (fun p => Z p k) (fun p => Z' p k) (fun p => ev e2 (Z p k)) Ri er br) ->
  (forall p, D p -> (forall k, (k < m)%nat -> ef e2 (Z' p k)) -> rsum m (fun k => cn (ev e2 (Z' p k))) <= Rg -> forall j, (j < n)%nat ->
     ef e1 (Y p j) /\ cn (csub (ev e1 (Y p j)) (B (fun k => ev e2 (Z' p k)) j)) <= ab * rsum m (fun k => cn (ev e2 (Z' p k))) + bb) ->
  let L := INR m * (Kf + af) in
  Ro <= Rg -> L * Ro + M * INR m * bf <= Ri -> L * Ro + INR m * bf + er * Ri + INR m * br <= Rg ->
  rt (fun q => D (fst q) /\ (snd q < n)%nat) (fun f => Sg (fun p => rsum n (fun j => f (p, j)))) e1 (fun q => X (fst q) (snd q)) (fun q => Y (fst q) (snd q))
     (fun q => B (F (fun j => ev e1 (X (fst q) j))) (snd q)) Ro
     ((Kb + ab) * er * L + ab * L + Kb * INR m * af) ((ab + Kb) * (INR m * bf) + bb + (ab + Kb) * (er * (M * INR m * bf) + INR m * br)).
Proof.
  intros HS BF BB Kf0 Kb0 af0 bf0 ab0 er0 br0 M0 H1 H2 H3 L R1 R2 R3 FX SX [p j] [Hp Hj]. cbn [fst snd] in *.
  set (x := fun p j => ev e1 (X p j)) in *. set (z := fun p k => ev e2 (Z p k)) in *. set (z' := fun p k => ev e2 (Z' p k)) in *.
  set (TS := Sg (fun p => rsum n (fun j => cn (ev e1 (X p j))))) in *. change (TS <= Ro) in SX.
  assert (Spos : forall q, 0 <= rsum n (fun j => cn (x q j))) by (intros; apply rsum_pos; intros; apply cn_pos).
  assert (Sle : forall q, D q -> rsum n (fun j => cn (x q j)) <= TS). { intros q Hq. apply (is_pick _ _ _ HS (fun p => rsum n (fun j => cn (x p j))) q Hq). auto. }
  assert (TS0 : 0 <= TS) by (eapply Rle_trans; [apply (Spos p)|apply Sle; auto]).
  pose proof (pos_INR m) as m0. assert (L0 : 0 <= L) by (apply Rmult_le_pos; lra).
  assert (ZZ : forall q, D q -> forall k, (k < m)%nat -> ef e2 (Z q k) /\ cn (csub (z q k) (F (x q) k)) <= af * rsum n (fun j => cn (x q j)) + bf).
  { intros q Hq. apply H1; auto. intros i Hi. apply (FX (q, i)); auto. eapply Rle_trans; [apply (Sle q Hq)|]. lra. }
  assert (Zs : forall q, D q -> rsum m (fun k => cn (z q k)) <= L * rsum n (fun j => cn (x q j)) + INR m * bf).
  { intros q Hq. apply Rle_trans with (rsum m (fun _ => (Kf + af) * rsum n (fun j => cn (x q j)) + bf)). 2: rewrite rsum_const; unfold L; lra.
    apply rsum_le. intros k Hk. eapply Rle_trans; [apply (cn_split _ (F (x q) k))|]. pose proof (proj2 BF (x q) k Hk). destruct (ZZ q Hq k Hk). lra. }
  assert (ZT : Sg (fun q => rsum m (fun k => cn (z q k))) <= L * TS + M * INR m * bf).
  { eapply Rle_trans; [apply (is_le _ _ _ HS _ (fun q => L * rsum n (fun j => cn (x q j)) + INR m * bf)); auto|]. rewrite (is_add _ _ _ HS), (is_scal _ _ _ HS), (is_const _ _ _ HS). change (Sg (fun q => rsum n (fun j => cn (x q j)))) with TS. lra. }
  assert (LR : L * TS <= L * Ro) by (apply Rmult_le_compat_l; auto).
  assert (Zp : forall k, 0 <= Sg (fun q => cn (z q k))) by (intros k; eapply Rle_trans; [apply (cn_pos (z p k))|apply (is_pick _ _ _ HS (fun q => cn (z q k)) p Hp); intros; apply cn_pos]).
  assert (Zk : forall k, (k < m)%nat -> Sg (fun q => cn (z q k)) <= Ri).
  { intros k Hk. apply Rle_trans with (rsum m (fun k => Sg (fun q => cn (z q k)))). apply (rsum_pick m (fun k => Sg (fun q => cn (z q k)))); auto. rewrite <- (is_rsum _ _ _ HS m (fun q k => cn (z q k))). lra. }
  assert (ZD : forall q, D q -> forall k, (k < m)%nat -> ef e2 (Z' q k) /\ cn (csub (z' q k) (z q k)) <= er * Sg (fun q => cn (z q k)) + br).
  { intros q Hq k Hk. apply (H2 k Hk); auto. intros q' Hq'. apply ZZ; auto. apply Zk; auto. }
  assert (Dz : rsum m (fun k => cn (csub (z' p k) (z p k))) <= er * (L * TS + M * INR m * bf) + INR m * br).
  { eapply Rle_trans. apply rsum_le. intros k Hk. apply (ZD p Hp k Hk). rewrite rsum_add, rsum_const, rsum_scal_l. rewrite <- (is_rsum _ _ _ HS m (fun q k => cn (z q k))).
    apply (Rmult_le_compat_l er) in ZT; auto. lra. }
  assert (Zs' : rsum m (fun k => cn (z' p k)) <= L * TS + INR m * bf + (er * (L * TS + M * INR m * bf) + INR m * br)).
  { eapply Rle_trans. apply rsum_le. intros k Hk. apply (cn_split _ (z p k)). rewrite rsum_add. specialize (Zs p Hp). specialize (Sle p Hp). apply (Rmult_le_compat_l L) in Sle; auto. lra. }
  destruct (H3 p Hp) with (j := j) as [FY EY]; auto.
  { intros k Hk. apply ZD; auto. }
  { fold z'. eapply Rle_trans; [exact Zs'|]. assert (er * (L * TS + M * INR m * bf) <= er * Ri) by (apply Rmult_le_compat_l; lra). lra. }
  split; auto. change (fun k => ev e2 (Z' p k)) with (z' p) in EY. change (fun j0 => ev e1 (X p j0)) with (x p). change (rsum m (fun k => cn (ev e2 (Z' p k)))) with (rsum m (fun k => cn (z' p k))) in EY.
  eapply Rle_trans; [apply (cn_csub _ (B (z' p) j))|].
  assert (E2 : cn (csub (B (z' p) j) (B (F (x p)) j)) <= Kb * (er * (L * TS + M * INR m * bf) + INR m * br + INR m * (af * TS + bf))).
  { rewrite <- (proj1 BB) by auto. eapply Rle_trans; [apply (proj2 BB); auto|]. apply Rmult_le_compat_l; auto.
    apply Rle_trans with (rsum m (fun k => cn (csub (z' p k) (z p k)) + (af * TS + bf))).
    - apply rsum_le. intros k Hk. eapply Rle_trans; [apply (cn_csub _ (z p k))|]. apply Rplus_le_compat_l. destruct (ZZ p Hp k Hk) as [_ G]. eapply Rle_trans; [exact G|]. apply Rplus_le_compat_r, Rmult_le_compat_l; auto.
    - rewrite rsum_add, rsum_const. lra. }
  apply (Rmult_le_compat_l ab) in Zs'; auto. fold TS. lra.
Qed.

(** The constants of one base, in a common form: [w] bounds the relative errors,
    [h] the absolute ones, [G] the growth, [q] the lengths. *)
Definition good_ops {T1 T2} (f : list T1 -> list T2 -> res (list T2)) (g : list T2 -> list T1 -> res (list T1)) (n m q : nat) (e1 : fel T1) (e2 : fel T2) (W : nat -> CR -> CR) (w h G Rg : R) : Prop :=
  exists F B Kf Kb af ab, near f n m e1 e2 F Rg af (8 * INR q * h) /\ near g m n e2 e1 B Rg ab (8 * INR q * h) /\ bounded F n m Kf /\ bounded B m n Kb /\
    0 <= Kf <= 2 /\ 0 <= Kb <= 2 /\ Kb * INR m * Kf <= G /\ 0 <= af <= 4 * w * Kf /\ 0 <= ab <= 4 * w * Kb /\ (1 <= n <= q)%nat /\ (1 <= m <= q)%nat /\
    forall (d : Dflt T1) x j, (j < n)%nat -> length x = n -> B (F (fun j => ev e1 x.[j])) j = W j (ev e1 x.[j]).

(** [f] takes row [p] of [X] to row [p] of [Z]. *)
Definition rows {P T1 T2} (D : P -> Prop) (f : list T1 -> list T2 -> res (list T2)) (n m : nat) (X : P -> nat -> T1) (Z : P -> nat -> T2) : Prop :=
  forall p, D p -> exists o, length o = m /\ f (map (X p) (seq 0 n)) o = Ok (map (Z p) (seq 0 m)).
Lemma row_at {T} {d : Dflt T} (x : nat -> T) n j : (j < n)%nat -> (map x (seq 0 n)).[j] = x j.
Proof. intros. rewrite at_map_seq; auto. Qed.
Lemma near_rows {P T1 T2} (D : P -> Prop) f n m (e1 : fel T1) (e2 : fel T2) F K Rg al be (X : P -> nat -> T1) (Z : P -> nat -> T2) :
  (1 <= n)%nat -> near f n m e1 e2 F Rg al be -> bounded F n m K -> rows D f n m X Z ->
  forall p, D p -> (forall j, (j < n)%nat -> ef e1 (X p j)) -> rsum n (fun j => cn (ev e1 (X p j))) <= Rg -> forall k, (k < m)%nat ->
     ef e2 (Z p k) /\ cn (csub (ev e2 (Z p k)) (F (fun j => ev e1 (X p j)) k)) <= al * rsum n (fun j => cn (ev e1 (X p j))) + be.
Proof.
  intros Hn HN HB HR p Hp FX SX k Hk. destruct (HR p Hp) as (o & Lo & E). set (x := map (X p) (seq 0 n)) in *.
  assert (Lx : length x = n) by (unfold x; rewrite map_length, seq_length; auto). pose (d1 := X p 0%nat : Dflt T1). pose (d2 := Z p 0%nat : Dflt T2).
  assert (XE : forall j, (j < n)%nat -> x.[j] = X p j) by (intros; apply row_at; auto).
  assert (XS : rsum n (fun j => cn (ev e1 x.[j])) = rsum n (fun j => cn (ev e1 (X p j)))) by (apply rsum_ext; intros; rewrite XE; auto).
  destruct (HN d1 d2 x o Lx Lo) as (y & Ey & Ly & Hy). { intros j Hj. rewrite XE; auto. } { rewrite XS. auto. }
  rewrite E in Ey. injection Ey as <-. destruct (Hy k Hk) as [F1 E1]. rewrite row_at in F1, E1 by auto. rewrite XS in E1. split; auto.
  rewrite (bounded_ext F n m K (fun j => ev e1 (X p j)) (fun j => ev e1 x.[j]) k HB Hk) by (intros; rewrite XE; auto). auto.
Qed.

Lemma rt_good {P T1 T2} (D : P -> Prop) Sg M Q (e1 : fel T1) (e2 : fel T2) f g n m q W w h G er c Rg Ri Ro (X Y : P -> nat -> T1) (Z Z' : P -> nat -> T2) :
  isum D Sg M -> 1 <= M <= Q -> good_ops f g n m q e1 e2 W w h G Rg -> 0 <= w <= / 1000 -> 0 <= h -> 0 <= G -> 0 <= er <= / 4 -> 0 <= c ->
  rows D f n m X Z -> rows D g m n Z' Y ->
  (forall k, (k < m)%nat -> rt D Sg e2 (fun p => Z p k) (fun p => Z' p k) (fun p => ev e2 (Z p k)) Ri er (c * (Q * Q) * h)) ->
  0 <= Ro -> 3 * INR q * Ro + 8 * Q * (INR q * INR q) * h <= Ri -> 2 * Ri + INR q * (c * (Q * Q) * h) <= Rg ->
  rt (fun q => D (fst q) /\ (snd q < n)%nat) (fun f => Sg (fun p => rsum n (fun j => f (p, j)))) e1 (fun q => X (fst q) (snd q)) (fun q => Y (fst q) (snd q))
     (fun q => W (snd q) (ev e1 (X (fst q) (snd q)))) Ro (G * (11 / 10 * er + 81 / 10 * w)) ((29 + 21 / 10 * c) * ((Q * INR q) * (Q * INR q)) * h).
Proof.
  intros HS [M1 MQ] (F & B & Kf & Kb & af & ab & NF & NB & BF & BB & KF & KB & KG & AF & AB & Hn & Hm & HW) Hw Hh HG Her Hc RX RY HI Ro0 R2 R3.
  assert (N1 : 1 <= INR q) by (replace 1 with (INR 1) by reflexivity; apply le_INR; lia). assert (m0 := pos_INR m). assert (MN : INR m <= INR q) by (apply le_INR; lia).
  set (bf := 8 * INR q * h) in *. assert (bf0 : 0 <= bf) by (unfold bf; apply Rmult_le_pos; lra). set (br := c * (Q * Q) * h) in *.
  assert (MM : Q <= Q * Q) by (rewrite <- (Rmult_1_l Q) at 1; apply Rmult_le_compat_r; lra).
  assert (br0 : 0 <= br) by (unfold br; apply Rmult_le_pos; auto; apply Rmult_le_pos; lra).
  assert (WK : 4 * w * Kf <= / 250 * Kf) by (apply Rmult_le_compat_r; lra). assert (WKb : 4 * w * Kb <= / 250 * Kb) by (apply Rmult_le_compat_r; lra).
  set (L := INR m * (Kf + af)). assert (L3 : 0 <= L <= 3 * INR q). { unfold L. split. apply Rmult_le_pos; lra. apply Rle_trans with (INR q * (Kf + af)). apply Rmult_le_compat_r; lra. rewrite (Rmult_comm 3). apply Rmult_le_compat_l; lra. }
  assert (LR : L * Ro <= 3 * INR q * Ro) by (apply Rmult_le_compat_r; lra).
  assert (NH : 0 <= (INR q * INR q) * h) by (apply Rmult_le_pos; auto; apply Rmult_le_pos; lra).
  assert (NH1 : INR q * h <= (INR q * INR q) * h). { apply Rmult_le_compat_r; auto. rewrite <- (Rmult_1_l (INR q)) at 1. apply Rmult_le_compat_r; lra. }
  assert (MB : INR m * bf <= 8 * ((INR q * INR q) * h)). { apply Rle_trans with (INR q * bf). apply Rmult_le_compat_r; auto. unfold bf. lra. }
  assert (MB0 : 0 <= INR m * bf) by (apply Rmult_le_pos; auto). assert (MMB : M * (INR m * bf) <= Q * (8 * ((INR q * INR q) * h))) by (apply Rmult_le_compat; lra).
  assert (M1N : (INR q * INR q) * h <= Q * ((INR q * INR q) * h)). { rewrite <- (Rmult_1_l (INR q * INR q * h)) at 1. apply Rmult_le_compat_r; lra. }
  assert (LP : 0 <= L * Ro) by (apply Rmult_le_pos; lra).
  assert (Ri0 : 0 <= Ri) by lra. assert (MBR : INR m * br <= INR q * br) by (apply Rmult_le_compat_r; auto). assert (MBR0 : 0 <= INR m * br) by (apply Rmult_le_pos; auto).
  assert (ER : er * Ri <= / 4 * Ri) by (apply Rmult_le_compat_r; lra).
  assert (RoRg : Ro <= Rg). { assert (Ro <= INR q * Ro) by (rewrite <- (Rmult_1_l Ro) at 1; apply Rmult_le_compat_r; auto). lra. }
  pose proof (rt_step D Sg M e1 e2 n m F B Kf Kb af bf ab bf er br Rg Ri Ro X Y Z Z' HS BF BB ltac:(lra) ltac:(lra) ltac:(lra) bf0 ltac:(lra) ltac:(lra) br0 ltac:(lra)
    (near_rows D f n m e1 e2 F Kf Rg af bf X Z ltac:(lia) NF BF RX) HI) as H.
  assert (H3 : forall p, D p -> (forall k, (k < m)%nat -> ef e2 (Z' p k)) -> rsum m (fun k => cn (ev e2 (Z' p k))) <= Rg -> forall j, (j < n)%nat ->
     ef e1 (Y p j) /\ cn (csub (ev e1 (Y p j)) (B (fun k => ev e2 (Z' p k)) j)) <= ab * rsum m (fun k => cn (ev e2 (Z' p k))) + bf).
  { intros p Hp FZ SZ j Hj. apply (near_rows D g m n e2 e1 B Kb Rg ab bf Z' Y ltac:(lia) NB BB RY p Hp FZ SZ j Hj). }
  specialize (H H3 RoRg). fold L in H. specialize (H ltac:(lra) ltac:(lra)). clear H3.
  intros FX SX [p j] [Hp Hj]. destruct (H FX SX (p, j) (Logic.conj Hp Hj)) as [FY EY]. cbn [fst snd] in *. split; auto. clear H.
  assert (EW : B (F (fun j => ev e1 (X p j))) j = W j (ev e1 (X p j))).
  { pose (d1 := X p 0%nat : Dflt T1). pose proof (HW d1 (map (X p) (seq 0 n)) j Hj) as K. rewrite map_length, seq_length in K. specialize (K eq_refl). rewrite row_at in K by auto. rewrite <- K.
    apply (bounded_ext B m n Kb _ _ j BB Hj). intros k Hk. apply (bounded_ext F n m Kf _ _ k BF Hk). intros i Hi. rewrite row_at; auto. }
  rewrite EW in EY. eapply Rle_trans; [exact EY|]. clear EY EW FX HI RX RY NF NB BF BB HW FY.
  assert (TS0 : 0 <= Sg (fun p => rsum n (fun j => cn (ev e1 (X p j))))).
  { eapply Rle_trans; [|apply (is_pick _ _ _ HS (fun p => rsum n (fun j => cn (ev e1 (X p j)))) p Hp); intros; apply rsum_pos; intros; apply cn_pos]. cbv beta. apply rsum_pos; intros; apply cn_pos. }
  apply Rplus_le_compat. apply Rmult_le_compat_r; auto.
  - assert (L <= INR m * (251 / 250 * Kf)) as LL by (unfold L; apply Rmult_le_compat_l; lra).
    assert (P0 : 0 <= Kb * INR m * Kf) by (apply Rmult_le_pos; [apply Rmult_le_pos|]; lra).
    assert (Kb * L <= 251 / 250 * G) as KL. { apply Rle_trans with (Kb * (INR m * (251 / 250 * Kf))). apply Rmult_le_compat_l; lra. replace (Kb * (INR m * (251 / 250 * Kf))) with (251 / 250 * (Kb * INR m * Kf)) by ring. lra. }
    assert (KL0 : 0 <= Kb * L) by (apply Rmult_le_pos; lra).
    assert (AL : ab * L <= 4 * w * (Kb * L)) by (replace (4 * w * (Kb * L)) with (4 * w * Kb * L) by ring; apply Rmult_le_compat_r; lra).
    assert (AL2 : 4 * w * (Kb * L) <= 4 * w * (251 / 250 * G)) by (apply Rmult_le_compat_l; lra).
    assert (AL3 : 4 * w * (Kb * L) <= / 250 * (Kb * L)) by (apply Rmult_le_compat_r; lra).
    assert (KA : Kb * INR m * af <= 4 * w * (Kb * INR m * Kf)). { apply Rle_trans with (Kb * INR m * (4 * w * Kf)). apply Rmult_le_compat_l; [apply Rmult_le_pos; lra|lra]. lra. }
    assert (KA2 : 4 * w * (Kb * INR m * Kf) <= 4 * w * G) by (apply Rmult_le_compat_l; lra).
    assert (EK : er * ((Kb + ab) * L) <= er * (11 / 10 * G)) by (apply Rmult_le_compat_l; lra). assert (0 <= w * G) by (apply Rmult_le_pos; lra). lra.
  - fold bf br. assert (AK : 0 <= ab + Kb <= 21 / 10) by lra.
    assert (Q1 : (ab + Kb) * (INR m * bf) <= 21 / 10 * (8 * ((INR q * INR q) * h))) by (apply Rmult_le_compat; lra).
    assert (E0 : 0 <= er * (M * INR m * bf)) by (apply Rmult_le_pos; [lra|]; rewrite Rmult_assoc; apply Rmult_le_pos; lra).
    assert (EQ : er * (M * INR m * bf) <= / 4 * (Q * (8 * (INR q * INR q * h)))). { apply Rmult_le_compat; try lra. rewrite Rmult_assoc. apply Rmult_le_pos; lra. }
    assert (Q2 : (ab + Kb) * (er * (M * INR m * bf) + INR m * br) <= 21 / 10 * (/ 4 * (Q * (8 * (INR q * INR q * h))) + INR q * br)) by (apply Rmult_le_compat; lra).
    set (T := (Q * INR q) * (Q * INR q) * h).
    assert (TQ1 : Q * (INR q * INR q * h) <= T). { unfold T. replace (Q * INR q * (Q * INR q) * h) with ((Q * Q) * (INR q * INR q * h)) by ring. apply Rmult_le_compat_r; auto. }
    assert (TQ2 : INR q * br <= c * T). { unfold br, T. replace (INR q * (c * (Q * Q) * h)) with (c * (Q * Q) * (INR q * h)) by ring. replace (c * (Q * INR q * (Q * INR q) * h)) with (c * (Q * Q) * (INR q * INR q * h)) by ring. apply Rmult_le_compat_l; auto. apply Rmult_le_pos; auto. lra. }
    replace ((29 + 21 / 10 * c) * (Q * INR q * (Q * INR q)) * h) with (29 * T + 21 / 10 * (c * T)) by (unfold T; ring). unfold bf at 2. lra.
Qed.
Lemma at_dflt {X} (d d' : Dflt X) (l : list X) i : (i < length l)%nat -> @at_ X d l i = @at_ X d' l i.
Proof. intros. unfold at_. apply nth_indep; auto. Qed.
