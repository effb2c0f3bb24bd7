(** The error calculus of RndAxis.v for bases whose inverse transform solves a
    linear system: its error also grows with the size of the solution, and its
    matrix entries with a factor [kap] (C57). *)
From Coq Require Import List Arith ZArith Reals Bool Lra Lia.
From Verif Require Import Base Num Fourier FourierFacts RndFft PropRound RndFinite2 RndAxis.
Import ListNotations.
Local Open Scope R_scope.

(** [g] computes [B] up to [al] times the size of the input plus [ac] times the
    size of the largest entry of the result plus [be]. *)
Definition near_sol {T1 T2} (g : list T1 -> list T2 -> res (list T2)) (l1 l2 : nat) (e1 : fel T1) (e2 : fel T2)
    (B : (nat -> CR) -> nat -> CR) (Rg al ac be : R) : Prop :=
  forall (d1 : Dflt T1) (d2 : Dflt T2) x o, length x = l1 -> length o = l2 -> (forall j, (j < l1)%nat -> ef e1 x.[j]) -> rsum l1 (fun j => cn (ev e1 x.[j])) <= Rg ->
  exists y, g x o = Ok y /\ length y = l2 /\ forall Bm, (forall k, (k < l2)%nat -> cn (B (fun j => ev e1 x.[j]) k) <= Bm) -> forall k, (k < l2)%nat -> ef e2 y.[k] /\
    cn (csub (ev e2 y.[k]) (B (fun j => ev e1 x.[j]) k)) <= al * rsum l1 (fun j => cn (ev e1 x.[j])) + ac * Bm + be.
Lemma near_near_sol {T1 T2} g l1 l2 (e1 : fel T1) (e2 : fel T2) B Rg al be : near g l1 l2 e1 e2 B Rg al be -> near_sol g l1 l2 e1 e2 B Rg al 0 be.
Proof.
  intros H d1 d2 x o Lx Lo Fx Sx. destruct (H d1 d2 x o Lx Lo Fx Sx) as (y & Ey & Ly & Hy). exists y. split; auto. split; auto. intros Bm _ k Hk. rewrite Rmult_0_l, Rplus_0_r. auto.
Qed.

Lemma rt_step_sol {P T1 T2} (D : P -> Prop) Sg M (e1 : fel T1) (e2 : fel T2) n m (F B : (nat -> CR) -> nat -> CR) (W : nat -> CR -> CR) Kf Kb af bf ab ac bb er br Rg Ri Ro
    (X Y : P -> nat -> T1) (Z Z' : P -> nat -> T2) :
  isum D Sg M -> bounded F n m Kf -> bounded B m n Kb -> 0 <= Kf -> 0 <= Kb -> 0 <= af -> 0 <= bf -> 0 <= ab -> 0 <= ac -> 0 <= er -> 0 <= br -> 0 <= M ->
  (forall p, D p -> (forall j, (j < n)%nat -> ef e1 (X p j)) -> rsum n (fun j => cn (ev e1 (X p j))) <= Rg -> forall k, (k < m)%nat ->
     ef e2 (Z p k) /\ cn (csub (ev e2 (Z p k)) (F (fun j => ev e1 (X p j)) k)) <= af * rsum n (fun j => cn (ev e1 (X p j))) + bf) ->
  (forall k, (k < m)%nat -> rt D Sg e2 (fun p => Z p k) (fun p => Z' p k) (fun p => ev e2 (Z p k)) Ri er br) ->
  (forall p Bm, D p -> (forall k, (k < m)%nat -> ef e2 (Z' p k)) -> rsum m (fun k => cn (ev e2 (Z' p k))) <= Rg -> (forall j, (j < n)%nat -> cn (B (fun k => ev e2 (Z' p k)) j) <= Bm) -> forall j, (j < n)%nat ->
     ef e1 (Y p j) /\ cn (csub (ev e1 (Y p j)) (B (fun k => ev e2 (Z' p k)) j)) <= ab * rsum m (fun k => cn (ev e2 (Z' p k))) + ac * Bm + bb) ->
  (forall p j, D p -> (j < n)%nat -> B (F (fun j => ev e1 (X p j))) j = W j (ev e1 (X p j))) -> (forall j z, cn (W j z) <= cn z) ->
  let L := INR m * (Kf + af) in
  Ro <= Rg -> L * Ro + M * INR m * bf <= Ri -> L * Ro + INR m * bf + er * Ri + INR m * br <= Rg ->
  let e2' := Kb * (er * L + INR m * af) in let b2 := Kb * (er * (M * INR m * bf) + INR m * br + INR m * bf) in
  rt (fun q => D (fst q) /\ (snd q < n)%nat) (fun f => Sg (fun p => rsum n (fun j => f (p, j)))) e1 (fun q => X (fst q) (snd q)) (fun q => Y (fst q) (snd q))
     (fun q => W (snd q) (ev e1 (X (fst q) (snd q)))) Ro
     (ab * (L + er * L) + ac * (1 + e2') + e2') (ab * (INR m * bf + er * (M * INR m * bf) + INR m * br) + ac * b2 + bb + b2).
Proof.
  intros HS BF BB Kf0 Kb0 af0 bf0 ab0 ac0 er0 br0 M0 H1 H2 H3 HW WL L R1 R2 R3 e2' b2 FX SX [p j] [Hp Hj]. cbn [fst snd] in *.
  set (x := fun p j => ev e1 (X p j)) in *. set (z := fun p k => ev e2 (Z p k)) in *. set (z' := fun p k => ev e2 (Z' p k)) in *.
  set (TS := Sg (fun p => rsum n (fun j => cn (ev e1 (X p j))))) in *. change (TS <= Ro) in SX.
  assert (Spos : forall q, 0 <= rsum n (fun j => cn (x q j))) by (intros; apply rsum_pos; intros; apply cn_pos).
  assert (Sle : forall q, D q -> rsum n (fun j => cn (x q j)) <= TS). { intros q Hq. apply (is_pick _ _ _ HS (fun p => rsum n (fun j => cn (x p j))) q Hq). auto. }
  assert (TS0 : 0 <= TS) by (eapply Rle_trans; [apply (Spos p)|apply Sle; auto]).
  pose proof (pos_INR m) as m0. assert (L0 : 0 <= L) by (apply Rmult_le_pos; lra).
  assert (ZZ : forall q, D q -> forall k, (k < m)%nat -> ef e2 (Z q k) /\ cn (csub (z q k) (F (x q) k)) <= af * rsum n (fun j => cn (x q j)) + bf).
  { intros q Hq. apply H1; auto. intros i Hi. apply (FX (q, i)); auto. eapply Rle_trans; [apply (Sle q Hq)|]. lra. }
  assert (Zs : forall q, D q -> rsum m (fun k => cn (z q k)) <= L * rsum n (fun j => cn (x q j)) + INR m * bf).
  { intros q Hq. apply Rle_trans with (rsum m (fun _ => (Kf + af) * rsum n (fun j => cn (x q j)) + bf)). 2: rewrite rsum_const; unfold L; lra.
    apply rsum_le. intros k Hk. eapply Rle_trans; [apply (cn_split _ (F (x q) k))|]. pose proof (proj2 BF (x q) k Hk). destruct (ZZ q Hq k Hk). lra. }
  assert (ZT : Sg (fun q => rsum m (fun k => cn (z q k))) <= L * TS + M * INR m * bf).
  { eapply Rle_trans; [apply (is_le _ _ _ HS _ (fun q => L * rsum n (fun j => cn (x q j)) + INR m * bf)); auto|]. rewrite (is_add _ _ _ HS), (is_scal _ _ _ HS), (is_const _ _ _ HS). change (Sg (fun q => rsum n (fun j => cn (x q j)))) with TS. lra. }
  assert (LR : L * TS <= L * Ro) by (apply Rmult_le_compat_l; auto).
  assert (Zp : forall k, 0 <= Sg (fun q => cn (z q k))) by (intros k; eapply Rle_trans; [apply (cn_pos (z p k))|apply (is_pick _ _ _ HS (fun q => cn (z q k)) p Hp); intros; apply cn_pos]).
  assert (Zk : forall k, (k < m)%nat -> Sg (fun q => cn (z q k)) <= Ri).
  { intros k Hk. apply Rle_trans with (rsum m (fun k => Sg (fun q => cn (z q k)))). apply (rsum_pick m (fun k => Sg (fun q => cn (z q k)))); auto. rewrite <- (is_rsum _ _ _ HS m (fun q k => cn (z q k))). lra. }
  assert (ZD : forall q, D q -> forall k, (k < m)%nat -> ef e2 (Z' q k) /\ cn (csub (z' q k) (z q k)) <= er * Sg (fun q => cn (z q k)) + br).
  { intros q Hq k Hk. apply (H2 k Hk); auto. intros q' Hq'. apply ZZ; auto. apply Zk; auto. }
  assert (Dz : rsum m (fun k => cn (csub (z' p k) (z p k))) <= er * (L * TS + M * INR m * bf) + INR m * br).
  { eapply Rle_trans. apply rsum_le. intros k Hk. apply (ZD p Hp k Hk). rewrite rsum_add, rsum_const, rsum_scal_l. rewrite <- (is_rsum _ _ _ HS m (fun q k => cn (z q k))).
    apply (Rmult_le_compat_l er) in ZT; auto. lra. }
  assert (Zs' : rsum m (fun k => cn (z' p k)) <= L * TS + INR m * bf + (er * (L * TS + M * INR m * bf) + INR m * br)).
  { eapply Rle_trans. apply rsum_le. intros k Hk. apply (cn_split _ (z p k)). rewrite rsum_add. specialize (Zs p Hp). specialize (Sle p Hp). apply (Rmult_le_compat_l L) in Sle; auto. lra. }
  assert (E2 : forall j, (j < n)%nat -> cn (csub (B (z' p) j) (W j (x p j))) <= e2' * TS + b2).
  { intros i Hi. unfold x at 1. rewrite <- HW by auto. fold x. change (fun j0 => ev e1 (X p j0)) with (x p). rewrite <- (proj1 BB) by auto. eapply Rle_trans; [apply (proj2 BB); auto|].
    replace (e2' * TS + b2) with (Kb * (er * (L * TS + M * INR m * bf) + INR m * br + INR m * (af * TS + bf))) by (unfold e2', b2; ring). apply Rmult_le_compat_l; auto.
    apply Rle_trans with (rsum m (fun k => cn (csub (z' p k) (z p k)) + (af * TS + bf))).
    - apply rsum_le. intros k Hk. eapply Rle_trans; [apply (cn_csub _ (z p k))|]. apply Rplus_le_compat_l. destruct (ZZ p Hp k Hk) as [_ G]. eapply Rle_trans; [exact G|]. apply Rplus_le_compat_r, Rmult_le_compat_l; auto.
    - rewrite rsum_add, rsum_const. lra. }
  assert (XB : forall i, (i < n)%nat -> cn (x p i) <= TS). { intros i Hi. eapply Rle_trans; [|apply (Sle p Hp)]. apply (rsum_pick n (fun i => cn (x p i))); auto. intros; apply cn_pos. }
  destruct (H3 p (TS + (e2' * TS + b2)) Hp) with (j := j) as [FY EY]; auto.
  { intros k Hk. apply ZD; auto. }
  { fold z'. eapply Rle_trans; [exact Zs'|]. assert (er * (L * TS + M * INR m * bf) <= er * Ri) by (apply Rmult_le_compat_l; lra). lra. }
  { intros i Hi. change (fun k => ev e2 (Z' p k)) with (z' p). eapply Rle_trans; [apply (cn_split _ (W i (x p i)))|]. specialize (E2 i Hi). specialize (WL i (x p i)). specialize (XB i Hi). lra. }
  split; auto. change (fun k => ev e2 (Z' p k)) with (z' p) in EY. change (rsum m (fun k => cn (ev e2 (Z' p k)))) with (rsum m (fun k => cn (z' p k))) in EY.
  eapply Rle_trans; [apply (cn_csub _ (B (z' p) j))|]. specialize (E2 j Hj). unfold x in E2.
  apply (Rmult_le_compat_l ab) in Zs'; auto. fold TS. lra.
Qed.

(** The constants of one base in a common form, for the round trip
    coefficients -> values -> coefficients. *)
Definition good_spec {T1 T2} (f : list T1 -> list T2 -> res (list T2)) (g : list T2 -> list T1 -> res (list T1)) (n m q : nat) (e1 : fel T1) (e2 : fel T2) (W : nat -> CR -> CR) (kap w h Rg : R) : Prop :=
  exists F B Kf Kb af ab ac, near f n m e1 e2 F Rg af (9 * INR q * h) /\ near_sol g m n e2 e1 B Rg ab ac (9 * kap * INR q * h) /\ bounded F n m Kf /\ bounded B m n Kb /\
    0 <= Kf <= 2 /\ 0 <= Kb <= 2 * kap /\ Kb * INR m * Kf <= 5 * kap /\ 0 <= af <= 5 * w * Kf /\ 0 <= ab <= 4 * w * Kb /\ 0 <= ac <= 12 * kap * w /\ (1 <= n <= q)%nat /\ (1 <= m <= q)%nat /\
    (forall (d : Dflt T1) x j, (j < n)%nat -> length x = n -> B (F (fun j => ev e1 x.[j])) j = W j (ev e1 x.[j])) /\ (forall j z, cn (W j z) <= cn z).

Lemma near_sol_rows {P T1 T2} (D : P -> Prop) g n m (e1 : fel T1) (e2 : fel T2) B K Rg al ac be (X : P -> nat -> T1) (Z : P -> nat -> T2) :
  (1 <= n)%nat -> near_sol g n m e1 e2 B Rg al ac be -> bounded B n m K -> rows D g n m X Z ->
  forall p Bm, D p -> (forall j, (j < n)%nat -> ef e1 (X p j)) -> rsum n (fun j => cn (ev e1 (X p j))) <= Rg -> (forall k, (k < m)%nat -> cn (B (fun j => ev e1 (X p j)) k) <= Bm) -> forall k, (k < m)%nat ->
     ef e2 (Z p k) /\ cn (csub (ev e2 (Z p k)) (B (fun j => ev e1 (X p j)) k)) <= al * rsum n (fun j => cn (ev e1 (X p j))) + ac * Bm + be.
Proof.
  intros Hn HN HB HR p Bm Hp FX SX HBm k Hk. destruct (HR p Hp) as (o & Lo & E). set (x := map (X p) (seq 0 n)) in *.
  assert (Lx : length x = n) by (unfold x; rewrite map_length, seq_length; auto). pose (d1 := X p 0%nat : Dflt T1). pose (d2 := Z p 0%nat : Dflt T2).
  assert (XE : forall j, (j < n)%nat -> x.[j] = X p j) by (intros; apply row_at; auto).
  assert (XS : rsum n (fun j => cn (ev e1 x.[j])) = rsum n (fun j => cn (ev e1 (X p j)))) by (apply rsum_ext; intros; rewrite XE; auto).
  assert (BE : forall k, (k < m)%nat -> B (fun j => ev e1 (X p j)) k = B (fun j => ev e1 x.[j]) k) by (intros i Hi; apply (bounded_ext B n m K _ _ i HB Hi); intros; rewrite XE; auto).
  destruct (HN d1 d2 x o Lx Lo) as (y & Ey & Ly & Hy). { intros j Hj. rewrite XE; auto. } { rewrite XS. auto. }
  rewrite E in Ey. injection Ey as <-. destruct (Hy Bm) with (k := k) as [F1 E1]; auto. { intros i Hi. rewrite <- BE by auto. auto. }
  rewrite row_at in F1, E1 by auto. rewrite XS in E1. split; auto. rewrite BE by auto. auto.
Qed.

Lemma rt_good_spec {P T1 T2} (D : P -> Prop) Sg M Q H (e1 : fel T1) (e2 : fel T2) f g n m q W kap w h er c Rg Ri Ro (X Y : P -> nat -> T1) (Z Z' : P -> nat -> T2) :
  isum D Sg M -> 1 <= M <= Q -> 1 <= H -> good_spec f g n m q e1 e2 W kap w h Rg -> 1 <= kap -> 0 <= w -> kap * w <= / 2000 -> 0 <= h -> 0 <= er <= / 4 -> 0 <= c ->
  rows D f n m X Z -> rows D g m n Z' Y ->
  (forall k, (k < m)%nat -> rt D Sg e2 (fun p => Z p k) (fun p => Z' p k) (fun p => ev e2 (Z p k)) Ri er (c * H * (Q * Q) * h)) ->
  0 <= Ro -> 3 * INR q * Ro + 9 * Q * (INR q * INR q) * h <= Ri -> 2 * Ri + INR q * (c * H * (Q * Q) * h) <= Rg ->
  rt (fun q => D (fst q) /\ (snd q < n)%nat) (fun f => Sg (fun p => rsum n (fun j => f (p, j)))) e1 (fun q => X (fst q) (snd q)) (fun q => Y (fst q) (snd q))
     (fun q => W (snd q) (ev e1 (X (fst q) (snd q)))) Ro (kap * (51 / 10 * er + 63 * w)) ((32 + 21 / 10 * c) * (H * kap) * ((Q * INR q) * (Q * INR q)) * h).
Proof.
  intros HS [M1 MQ] H1 (F & B & Kf & Kb & af & ab & ac & NF & NB & BF & BB & KF & KB & KG & AF & AB & AC & Hn & Hm & HW & WL) K1 w0 KW Hh Her Hc RX RY HI Ro0 R2 R3.
  assert (Hw : w <= / 2000). { apply Rle_trans with (kap * w); auto. rewrite <- (Rmult_1_l w) at 1. apply Rmult_le_compat_r; auto. }
  assert (N1 : 1 <= INR q) by (replace 1 with (INR 1) by reflexivity; apply le_INR; lia). assert (m0 := pos_INR m). assert (MN : INR m <= INR q) by (apply le_INR; lia).
  set (bf := 9 * INR q * h) in *. assert (bf0 : 0 <= bf) by (unfold bf; apply Rmult_le_pos; lra). set (br := c * H * (Q * Q) * h) in *.
  assert (MM : Q <= Q * Q) by (rewrite <- (Rmult_1_l Q) at 1; apply Rmult_le_compat_r; lra).
  assert (br0 : 0 <= br) by (unfold br; apply Rmult_le_pos; auto; apply Rmult_le_pos; [apply Rmult_le_pos|]; lra).
  assert (WK : 5 * w * Kf <= / 400 * Kf) by (apply Rmult_le_compat_r; lra).
  set (L := INR m * (Kf + af)). assert (L3 : 0 <= L <= 3 * INR q). { unfold L. split. apply Rmult_le_pos; lra. apply Rle_trans with (INR q * (Kf + af)). apply Rmult_le_compat_r; lra. rewrite (Rmult_comm 3). apply Rmult_le_compat_l; lra. }
  assert (LR : L * Ro <= 3 * INR q * Ro) by (apply Rmult_le_compat_r; lra).
  assert (NH : 0 <= (INR q * INR q) * h) by (apply Rmult_le_pos; auto; apply Rmult_le_pos; lra).
  assert (NH1 : INR q * h <= (INR q * INR q) * h). { apply Rmult_le_compat_r; auto. rewrite <- (Rmult_1_l (INR q)) at 1. apply Rmult_le_compat_r; lra. }
  assert (MB : INR m * bf <= 9 * ((INR q * INR q) * h)). { apply Rle_trans with (INR q * bf). apply Rmult_le_compat_r; auto. unfold bf. lra. }
  assert (MB0 : 0 <= INR m * bf) by (apply Rmult_le_pos; auto). assert (MMB : M * (INR m * bf) <= Q * (9 * ((INR q * INR q) * h))) by (apply Rmult_le_compat; lra).
  assert (M1N : (INR q * INR q) * h <= Q * ((INR q * INR q) * h)). { rewrite <- (Rmult_1_l (INR q * INR q * h)) at 1. apply Rmult_le_compat_r; lra. }
  assert (LP : 0 <= L * Ro) by (apply Rmult_le_pos; lra).
  assert (Ri0 : 0 <= Ri) by lra. assert (MBR : INR m * br <= INR q * br) by (apply Rmult_le_compat_r; auto). assert (MBR0 : 0 <= INR m * br) by (apply Rmult_le_pos; auto).
  assert (ER : er * Ri <= / 4 * Ri) by (apply Rmult_le_compat_r; lra).
  assert (RoRg : Ro <= Rg). { assert (Ro <= INR q * Ro) by (rewrite <- (Rmult_1_l Ro) at 1; apply Rmult_le_compat_r; auto). lra. }
  assert (EW : forall p j, D p -> (j < n)%nat -> B (F (fun j => ev e1 (X p j))) j = W j (ev e1 (X p j))).
  { intros p j Hp Hj. pose (d1 := X p 0%nat : Dflt T1). pose proof (HW d1 (map (X p) (seq 0 n)) j Hj) as K. rewrite map_length, seq_length in K. specialize (K eq_refl). rewrite row_at in K by auto. rewrite <- K.
    apply (bounded_ext B m n Kb _ _ j BB Hj). intros k Hk. apply (bounded_ext F n m Kf _ _ k BF Hk). intros i Hi. rewrite row_at; auto. }
  pose proof (rt_step_sol D Sg M e1 e2 n m F B W Kf Kb af bf ab ac (9 * kap * INR q * h) er br Rg Ri Ro X Y Z Z' HS BF BB ltac:(lra) ltac:(lra) ltac:(lra) bf0 ltac:(lra) ltac:(lra) ltac:(lra) br0 ltac:(lra)
    (near_rows D f n m e1 e2 F Kf Rg af bf X Z ltac:(lia) NF BF RX) HI (near_sol_rows D g m n e2 e1 B Kb Rg ab ac _ Z' Y ltac:(lia) NB BB RY) EW WL RoRg) as G.
  fold L in G. specialize (G ltac:(lra) ltac:(lra)). cbv zeta in G.
  intros FX SX [p j] [Hp Hj]. destruct (G FX SX (p, j) (Logic.conj Hp Hj)) as [FY EY]. cbn [fst snd] in *. split; auto. clear G.
  eapply Rle_trans; [exact EY|]. clear EY EW FX HI RX RY NF NB BF BB HW FY.
  assert (TS0 : 0 <= Sg (fun p => rsum n (fun j => cn (ev e1 (X p j))))).
  { eapply Rle_trans; [|apply (is_pick _ _ _ HS (fun p => rsum n (fun j => cn (ev e1 (X p j)))) p Hp); intros; apply rsum_pos; intros; apply cn_pos]. cbv beta. apply rsum_pos; intros; apply cn_pos. }
  clear HS SX WL LR R2 R3 RoRg ER. assert (P0 : 0 <= Kb * INR m * Kf) by (apply Rmult_le_pos; [apply Rmult_le_pos|]; lra). assert (wk : 0 <= kap * w) by (apply Rmult_le_pos; lra). assert (AC2 : ac <= 12 / 2000) by lra.
  apply Rplus_le_compat. apply Rmult_le_compat_r; auto.
  - assert (L <= INR m * (401 / 400 * Kf)) as LL by (unfold L; apply Rmult_le_compat_l; lra).
    assert (Kb * L <= 401 / 400 * (5 * kap)) as KL. { apply Rle_trans with (Kb * (INR m * (401 / 400 * Kf))). apply Rmult_le_compat_l; lra. replace (Kb * (INR m * (401 / 400 * Kf))) with (401 / 400 * (Kb * INR m * Kf)) by ring. lra. }
    assert (KL0 : 0 <= Kb * L) by (apply Rmult_le_pos; lra).
    assert (AL : ab * (L + er * L) <= 4 * w * (5 / 4 * (Kb * L))). { replace (4 * w * (5 / 4 * (Kb * L))) with (4 * w * Kb * (5 / 4 * L)) by ring. assert (0 <= er * L <= / 4 * L). { split. apply Rmult_le_pos; lra. apply Rmult_le_compat_r; lra. } apply Rmult_le_compat; lra. }
    assert (AL2 : 4 * w * (5 / 4 * (Kb * L)) <= 4 * w * (5 / 4 * (401 / 400 * (5 * kap)))) by (apply Rmult_le_compat_l; lra).
    set (e := Kb * (er * L + INR m * af)).
    assert (EE : 0 <= e <= kap * (401 / 80 * er + 25 * w)).
    { unfold e. split. apply Rmult_le_pos; [lra|]. apply Rplus_le_le_0_compat; apply Rmult_le_pos; lra.
      assert (KA : Kb * (INR m * af) <= 5 * w * (5 * kap)). { apply Rle_trans with (Kb * (INR m * (5 * w * Kf))). apply Rmult_le_compat_l; [lra|]. apply Rmult_le_compat_l; lra. replace (Kb * (INR m * (5 * w * Kf))) with (5 * w * (Kb * INR m * Kf)) by ring. apply Rmult_le_compat_l; lra. }
      assert (er * (Kb * L) <= er * (401 / 400 * (5 * kap))) by (apply Rmult_le_compat_l; lra). lra. }
    assert (EA : ac * e <= 12 / 2000 * e) by (apply Rmult_le_compat_r; lra).
    assert (0 <= kap * er) by (apply Rmult_le_pos; lra). lra.
  - set (b2 := Kb * (er * (M * INR m * bf) + INR m * br + INR m * bf)). set (T := (H * kap) * ((Q * INR q) * (Q * INR q)) * h).
    assert (E0 : 0 <= er * (M * INR m * bf)) by (apply Rmult_le_pos; [lra|]; rewrite Rmult_assoc; apply Rmult_le_pos; lra).
    assert (EQ : er * (M * INR m * bf) <= / 4 * (Q * (9 * (INR q * INR q * h)))). { apply Rmult_le_compat; try lra. rewrite Rmult_assoc. apply Rmult_le_pos; lra. }
    assert (A0 : 0 <= er * (M * INR m * bf) + INR m * br + INR m * bf) by lra.
    assert (B2 : b2 <= 2 * kap * (/ 4 * (Q * (9 * (INR q * INR q * h))) + INR q * br + 9 * (INR q * INR q * h))) by (unfold b2; apply Rmult_le_compat; lra).
    assert (B20 : 0 <= b2) by (unfold b2; apply Rmult_le_pos; lra).
    assert (AB2 : ab * (INR m * bf + er * (M * INR m * bf) + INR m * br) <= 4 * w * b2). { unfold b2. replace (4 * w * (Kb * (er * (M * INR m * bf) + INR m * br + INR m * bf))) with (4 * w * Kb * (INR m * bf + er * (M * INR m * bf) + INR m * br)) by ring. apply Rmult_le_compat_r; lra. }
    assert (WB : 4 * w * b2 <= 4 / 2000 * b2) by (apply Rmult_le_compat_r; lra). assert (CB : ac * b2 <= 12 / 2000 * b2) by (apply Rmult_le_compat_r; lra).
    assert (QP : 0 <= Q * (INR q * INR q * h)) by (apply Rmult_le_pos; lra).
    assert (TQ : kap * (Q * (INR q * INR q * h)) <= T). { unfold T. replace (H * kap * (Q * INR q * (Q * INR q)) * h) with (kap * (H * ((Q * Q) * (INR q * INR q * h)))) by ring. apply Rmult_le_compat_l; [lra|].
      apply Rle_trans with (1 * ((Q * Q) * (INR q * INR q * h))). rewrite Rmult_1_l. apply Rmult_le_compat_r; auto. apply Rmult_le_compat_r; auto. apply Rmult_le_pos; lra. }
    assert (TQ1 : kap * (INR q * INR q * h) <= T) by (eapply Rle_trans; [|exact TQ]; apply Rmult_le_compat_l; lra).
    assert (TQ0 : kap * (INR q * h) <= T) by (eapply Rle_trans; [|exact TQ1]; apply Rmult_le_compat_l; lra).
    assert (TQ2 : kap * (INR q * br) <= c * T). { unfold br, T. replace (kap * (INR q * (c * H * (Q * Q) * h))) with (c * (H * kap) * (Q * Q) * (INR q * h)) by ring. replace (c * (H * kap * (Q * INR q * (Q * INR q)) * h)) with (c * (H * kap) * (Q * Q) * (INR q * INR q * h)) by ring.
      apply Rmult_le_compat_l; auto. apply Rmult_le_pos; [|lra]. apply Rmult_le_pos; auto. apply Rmult_le_pos; lra. }
    assert (T0 : 0 <= T) by (eapply Rle_trans; [|exact TQ]; apply Rmult_le_pos; lra). assert (cT : 0 <= c * T) by (apply Rmult_le_pos; auto).
    replace ((32 + 21 / 10 * c) * (H * kap) * (Q * INR q * (Q * INR q)) * h) with (32 * T + 21 / 10 * (c * T)) by (unfold T; ring). lra.
Qed.
