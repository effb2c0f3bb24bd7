(** Differentiation matrices and their pseudo inverses (Cheb.dmat, Cheb.pinv). *)
From Coq Require Import List Arith Lia Bool ZArith Reals Lra.
From Verif Require Import Base Num Linalg LinalgProofs StencilProofs StencilProofs2 Cheb ChebPoly ChebGrad.
Import ListNotations.
Local Open Scope R_scope.

(** ** Loops *)
Lemma wp_for_each_range0 {S} (lo hi : nat) (body : nat -> S -> res S) (I : nat -> S -> Prop) s (Q : S -> Prop) :
  I lo s ->
  (forall i s, (lo <= i < hi)%nat -> I i s -> wp (body i s) (I (i + 1)%nat)) ->
  (forall s, I (Nat.max lo hi) s -> Q s) ->
  wp (for_each (range lo hi) body s) Q.
Proof.
  intros H0 Hs HQ. destruct (le_dec lo hi).
  - apply (wp_for_each_range lo hi _ I); auto. rewrite Nat.max_r in HQ by lia. auto.
  - unfold range. replace (hi - lo)%nat with 0%nat by lia. simpl. apply HQ. rewrite Nat.max_l by lia. auto.
Qed.

(** ** 64-bit arithmetic *)
Definition rmod (r : res Z) (z : Z) : Prop :=
  exists y, r = Ok y /\ (0 <= y < u64max)%Z /\ (y mod u64max = z mod u64max)%Z.

Lemma u64_pos : (0 < u64max)%Z. Proof. reflexivity. Qed.

Lemma uwrap_rel z z' : (z mod u64max = z' mod u64max)%Z -> rmod (uwrap Release z) z'.
Proof.
  intros H. unfold uwrap. destruct (Z.leb_spec 0 z), (Z.ltb_spec z u64max); simpl.
  - exists z. auto.
  - exists (z mod u64max)%Z. split; auto. split. apply Z.mod_pos_bound, u64_pos. rewrite Z.mod_mod by (generalize u64_pos; lia). auto.
  - exists (z mod u64max)%Z. split; auto. split. apply Z.mod_pos_bound, u64_pos. rewrite Z.mod_mod by (generalize u64_pos; lia). auto.
  - exists (z mod u64max)%Z. split; auto. split. apply Z.mod_pos_bound, u64_pos. rewrite Z.mod_mod by (generalize u64_pos; lia). auto.
Qed.

Lemma rmod_Ok z : (0 <= z < u64max)%Z -> rmod (Ok z) z.
Proof. exists z; auto. Qed.
Lemma rmod_add a b x y : rmod a x -> rmod b y -> rmod (uadd Release a b) (x + y).
Proof.
  intros (x' & -> & _ & Hx) (y' & -> & _ & Hy). simpl. apply uwrap_rel.
  rewrite Z.add_mod, Hx, Hy, <- Z.add_mod; auto; generalize u64_pos; lia.
Qed.
Lemma rmod_mul a b x y : rmod a x -> rmod b y -> rmod (umul Release a b) (x * y).
Proof.
  intros (x' & -> & _ & Hx) (y' & -> & _ & Hy). simpl. apply uwrap_rel.
  rewrite Z.mul_mod, Hx, Hy, <- Z.mul_mod; auto; generalize u64_pos; lia.
Qed.
Lemma rmod_sub a b x y : rmod a x -> rmod b y -> rmod (uminus Release a b) (x - y).
Proof.
  intros (x' & -> & _ & Hx) (y' & -> & _ & Hy). simpl. apply uwrap_rel.
  rewrite Zminus_mod, Hx, Hy, <- Zminus_mod; auto.
Qed.
Lemma rmod_bind a x k (z : Z) :
  rmod a x -> (forall y, rmod (Ok y) x -> rmod (k y) z) -> rmod (bind a k) z.
Proof. intros (y & -> & B & E) H. simpl. apply H. exists y; auto. Qed.
Lemma rmod_val r z : rmod r z -> (0 <= z < u64max)%Z -> r = Ok z.
Proof.
  intros (y & -> & B & E) Hz. rewrite !Z.mod_small in E by auto. subst; auto.
Qed.
Lemma rmod_valm r z : rmod r z -> r = Ok (z mod u64max)%Z.
Proof. intros (y & -> & B & E). rewrite (Z.mod_small y) in E by auto. subst; auto. Qed.

(** Exact values of the integer entries. *)
Definition iex (d : nat) (p q : Z) : Z :=
  match d with
  | 1%nat => (2 * q)%Z
  | 2%nat => (q * (q*q - p*p))%Z
  | 3%nat => (q * (((q-p)*(q-p) - 1) * ((q+p)*(q+p) - 1)))%Z
  | 4%nat => (q * ((q*q - p*p) * ((q-p)*(q-p) - 4) * ((q+p)*(q+p) - 4)))%Z
  | _ => 0%Z
  end.

Definition dent (bm : bmode) (d : nat) : Z -> Z -> res Z :=
  match d with 1%nat => dent1 bm | 2%nat => dent2 bm | 3%nat => dent3 bm | _ => dent4 bm end.

Ltac rmod_tac := repeat first
  [ apply rmod_add | apply rmod_sub | apply rmod_mul | apply rmod_Ok; unfold u64max in *; lia | assumption ].

Lemma dent_rel d p q : (1 <= d <= 4)%nat -> (0 <= p < u64max)%Z -> (0 <= q < u64max)%Z ->
  rmod (dent Release d p q) (iex d p q).
Proof.
  intros Hd Hp Hq.
  assert (d = 1 \/ d = 2 \/ d = 3 \/ d = 4)%nat as [->|[->|[->| ->]]] by lia;
    cbn [dent iex]; unfold dent1, dent2, dent3, dent4.
  - replace (2 * q)%Z with (q * 2)%Z by ring. rmod_tac.
  - rmod_tac.
  - eapply rmod_bind; [rmod_tac|]. intros p2 Hp2. eapply rmod_bind; [rmod_tac|]. intros q2 Hq2.
    replace (iex 3 p q) with (q * (q*q * (q*q - 2) - 2 * (q*q) * (p*p) + p*p*(p*p) - 2*(p*p) + 1))%Z
      by (cbn [iex]; ring).
    match goal with |- rmod _ ?z => replace z with (q * (q*q * (q*q - 2) - 2 * (q*q) * (p*p) + p*p*(p*p) - 2*(p*p) + 1))%Z by ring end.
    rmod_tac.
  - eapply rmod_bind; [rmod_tac|]. intros p2 Hp2. eapply rmod_bind; [rmod_tac|]. intros p4 Hp4.
    eapply rmod_bind; [rmod_tac|]. intros q2 Hq2. eapply rmod_bind; [rmod_tac|]. intros q4 Hq4.
    match goal with |- rmod _ ?z => replace z with
      (q * (q*q * (q*q - 4) * (q*q-4) + 3 * (q*q) * (p*p*p*p) - p*p*(p*p*p*p) + 8*(p*p*p*p) - 16*(p*p) - 3*(q*q*q*q)*(p*p)))%Z by ring end.
    rmod_tac.
Qed.

(** Largest size for which the entries of order d fit in 64 bits. *)
Definition dbound (d : nat) : Z :=
  match d with
  | 1%nat => 9223372036854775808 | 2%nat => 2642245 | 3%nat => 7131 | _ => 566 end.

Lemma iex_range d p q : (1 <= d <= 4)%nat -> (0 <= p)%Z -> (p + Z.of_nat d <= q)%Z -> (q < dbound d)%Z ->
  (0 <= iex d p q < u64max)%Z.
Proof.
  intros Hd Hp Hpq Hq.
  assert (d = 1 \/ d = 2 \/ d = 3 \/ d = 4)%nat as [->|[->|[->| ->]]] by lia;
    cbn [iex]; unfold dbound in Hq; simpl in Hpq; unfold u64max in *.
  - lia.
  - assert (0 <= p*p <= q*q)%Z by nia.
    split. apply Z.mul_nonneg_nonneg; lia.
    apply Z.le_lt_trans with (q * (q*q))%Z. apply Z.mul_le_mono_nonneg_l; lia.
    apply Z.le_lt_trans with (2642244 * (2642244*2642244))%Z; [|reflexivity]. 
    apply Z.mul_le_mono_nonneg; try lia; nia.
  - assert (0 <= (q-p)*(q-p) - 1 <= q*q - 1)%Z by nia.
    assert (0 <= (q-p)*(q-p) - 1)%Z by nia.
    assert (0 <= (q+p)*(q+p)-1)%Z by nia.
    assert (E : (((q-p)*(q-p) - 1) * ((q+p)*(q+p) - 1) = (q*q-p*p)*(q*q-p*p) - 2*(q*q+p*p) + 1)%Z) by ring.
    assert (0 <= q*q-p*p <= q*q)%Z by nia.
    assert ((q*q-p*p)*(q*q-p*p) <= (q*q)*(q*q))%Z by (apply Z.mul_le_mono_nonneg; lia).
    assert (q*q <= 7130*7130)%Z by (apply Z.mul_le_mono_nonneg; lia).
    assert ((q*q)*(q*q) <= (7130*7130)*(7130*7130))%Z by (apply Z.mul_le_mono_nonneg; lia).
    split. apply Z.mul_nonneg_nonneg; [lia|]. apply Z.mul_nonneg_nonneg; lia.
    apply Z.le_lt_trans with (7130 * ((7130*7130)*(7130*7130)))%Z; [|reflexivity].
    apply Z.mul_le_mono_nonneg; first [ lia | apply Z.mul_nonneg_nonneg; lia | rewrite E; nia ].
  - assert (0 <= (q-p)*(q-p) - 4)%Z by nia.
    assert (0 <= (q+p)*(q+p)-4)%Z by nia.
    assert (E : (((q-p)*(q-p) - 4) * ((q+p)*(q+p) - 4) = (q*q-p*p)*(q*q-p*p) - 8*(q*q+p*p) + 16)%Z) by ring.
    assert (0 <= q*q-p*p <= q*q)%Z by nia.
    assert (H3 : ((q*q-p*p)*(q*q-p*p) <= (q*q)*(q*q))%Z) by (apply Z.mul_le_mono_nonneg; lia).
    assert (q*q <= 565*565)%Z by (apply Z.mul_le_mono_nonneg; lia).
    assert ((q*q)*(q*q) <= (565*565)*(565*565))%Z by (apply Z.mul_le_mono_nonneg; lia).
    assert (0 <= ((q-p)*(q-p) - 4) * ((q+p)*(q+p) - 4))%Z by (apply Z.mul_nonneg_nonneg; lia).
    rewrite <- Z.mul_assoc.
    split. apply Z.mul_nonneg_nonneg; [lia|]. apply Z.mul_nonneg_nonneg; lia.
    apply Z.le_lt_trans with (565 * ((565*565)*((565*565)*(565*565))))%Z; [|reflexivity].
    apply Z.mul_le_mono_nonneg; first [ lia | apply Z.mul_nonneg_nonneg; lia |
    apply Z.mul_le_mono_nonneg; first [ lia | rewrite E; nia ] ].
Qed.

Lemma dent_release d p q : (1 <= d <= 4)%nat -> (0 <= p)%Z -> (p + Z.of_nat d <= q)%Z -> (q < dbound d)%Z ->
  dent Release d p q = Ok (iex d p q).
Proof.
  intros Hd Hp Hpq Hq. apply rmod_val. apply dent_rel; auto.
  - assert (dbound d <= 9223372036854775808)%Z by (unfold dbound; destruct d as [|[|[|[|]]]]; simpl; lia). unfold u64max. lia.
  - assert (dbound d <= 9223372036854775808)%Z by (unfold dbound; destruct d as [|[|[|[|]]]]; simpl; lia). unfold u64max. lia.
  - apply iex_range; auto.
Qed.

(** Debug build: no overflow for orders 1, 2 and 4. *)
Lemma uwrap_ok bm z : (0 <= z < u64max)%Z -> uwrap bm z = Ok z.
Proof.
  intros. unfold uwrap. destruct (Z.leb_spec 0 z), (Z.ltb_spec z u64max); simpl; try lia; auto.
Qed.
Lemma uadd_ok bm a b : (0 <= a + b < u64max)%Z -> uadd bm (Ok a) (Ok b) = Ok (a + b)%Z.
Proof. intros; apply uwrap_ok; auto. Qed.
Lemma umul_ok bm a b : (0 <= a * b < u64max)%Z -> umul bm (Ok a) (Ok b) = Ok (a * b)%Z.
Proof. intros; apply uwrap_ok; auto. Qed.
Lemma uminus_ok bm a b : (0 <= a - b < u64max)%Z -> uminus bm (Ok a) (Ok b) = Ok (a - b)%Z.
Proof. intros; apply uwrap_ok; auto. Qed.

Lemma dent_debug d p q : (d = 1 \/ d = 2 \/ d = 4)%nat -> (0 <= p)%Z -> (p + Z.of_nat d <= q)%Z ->
  (q < dbound d)%Z -> dent Debug d p q = Ok (iex d p q).
Proof.
  intros Hd Hp Hpq Hq.
  pose proof (iex_range d p q ltac:(lia) Hp Hpq Hq) as HR.
  destruct Hd as [->|[->| ->]]; cbn [dent iex] in *; unfold dent1, dent2, dent4; unfold dbound in Hq; simpl in Hpq.
  - rewrite umul_ok by lia. f_equal; ring.
  - assert (0 <= p*p <= q*q)%Z by nia.
    assert (q*q <= 2642244*2642244)%Z by (apply Z.mul_le_mono_nonneg; lia).
    rewrite !umul_ok by (unfold u64max; lia). rewrite uminus_ok by (unfold u64max; lia).
    rewrite umul_ok by lia. reflexivity.
  - assert (P2 : (0 <= p*p <= q*q)%Z) by nia.
    assert (Q2 : (16 <= q*q <= 565*565)%Z) by nia.
    assert (P4 : (0 <= p*p*p*p)%Z) by nia.
    assert (Q4 : (q*q*q*q <= 565*565*565*565)%Z).
    { replace (q*q*q*q)%Z with ((q*q)*(q*q))%Z by ring.
      apply Z.le_trans with ((565*565)*(565*565))%Z; [apply Z.mul_le_mono_nonneg; lia|reflexivity]. }
    assert (PQ4 : (p*p*p*p <= q*q*q*q)%Z).
    { replace (q*q*q*q)%Z with ((q*q)*(q*q))%Z by ring. replace (p*p*p*p)%Z with ((p*p)*(p*p))%Z by ring.
      apply Z.mul_le_mono_nonneg; lia. }
    assert (A1 : (0 <= q*q*(q*q-4) <= q*q*q*q)%Z) by (replace (q*q*q*q)%Z with ((q*q)*(q*q))%Z by ring; nia).
    assert (A2 : (0 <= q*q*(q*q-4)*(q*q-4) <= 565*565*565*565*(565*565))%Z).
    { split. nia. apply Z.mul_le_mono_nonneg; lia. }
    assert (B1 : (0 <= q*q*(p*p*p*p) <= 565*565*565*565*(565*565))%Z).
    { split. apply Z.mul_nonneg_nonneg; lia. rewrite Z.mul_comm. apply Z.mul_le_mono_nonneg; lia. }
    assert (B2 : (0 <= p*p*(p*p*p*p) <= q*q*(p*p*p*p))%Z).
    { split. apply Z.mul_nonneg_nonneg; lia. apply Z.mul_le_mono_nonneg_r; lia. }
    assert (C1 : (0 <= q*q*q*q*(p*p) <= 565*565*565*565*(565*565))%Z).
    { split. apply Z.mul_nonneg_nonneg; lia. apply Z.mul_le_mono_nonneg; lia. }
    set (p2 := (p*p)%Z) in *. set (p4 := (p2*p*p)%Z) in *. set (q2 := (q*q)%Z) in *. set (q4 := (q2*q*q)%Z) in *.
    assert (E : ((q2-p2)*((q-p)*(q-p)-4)*((q+p)*(q+p)-4) =
       q2*(q2-4)*(q2-4) + 3*q2*p4 - p2*p4 + 8*p4 - 16*p2 - 3*q4*p2)%Z) by (unfold q2,p2,q4,p4; unfold q2, p2; ring).
    assert (F : (0 <= (q2-p2)*((q-p)*(q-p)-4)*((q+p)*(q+p)-4))%Z).
    { apply Z.mul_nonneg_nonneg; [apply Z.mul_nonneg_nonneg|]; unfold p2, q2; clear - Hp Hpq; nia. }
    rewrite E in F, HR.
    assert (P3 : (0 <= p2*p <= 565*565*565)%Z).
    { split. apply Z.mul_nonneg_nonneg; lia. apply Z.mul_le_mono_nonneg; lia. }
    assert (Q3 : (0 <= q2*q <= 565*565*565)%Z).
    { split. apply Z.mul_nonneg_nonneg; lia. apply Z.mul_le_mono_nonneg; lia. }
    assert (D1 : (3*q2*p4 = 3*(q2*p4))%Z) by ring. assert (D2 : (3*q4*p2 = 3*(q4*p2))%Z) by ring.
    rewrite umul_ok by (unfold u64max; fold p2; clear - P2 Q2; lia). fold p2. cbn [bind].
    rewrite umul_ok by (unfold u64max; fold p2; clear - P3; lia).
    rewrite umul_ok by (unfold u64max; fold p4; clear - P4 PQ4 Q4; lia). fold p4. cbn [bind].
    rewrite umul_ok by (unfold u64max; fold q2; clear - Q2; lia). fold q2. cbn [bind].
    rewrite umul_ok by (unfold u64max; fold q2; clear - Q3; lia).
    rewrite umul_ok by (unfold u64max; fold q4; clear - P4 PQ4 Q4; lia). fold q4. cbn [bind].
    rewrite (uminus_ok _ q2) by (unfold u64max; clear - Q2; lia).
    rewrite (umul_ok _ q2) by (unfold u64max; clear - A1 Q4; lia).
    rewrite (umul_ok _ (q2 * (q2-4))) by (unfold u64max; clear - A2; lia).
    rewrite (umul_ok _ 3 q2) by (unfold u64max; clear - Q2; lia).
    rewrite (umul_ok _ (3*q2) p4) by (rewrite D1; unfold u64max; clear - B1; lia).
    rewrite (umul_ok _ p2 p4) by (unfold u64max; clear - B1 B2; lia).
    rewrite (umul_ok _ 8 p4) by (unfold u64max; clear - P4 PQ4 Q4; lia).
    rewrite (umul_ok _ 16 p2) by (unfold u64max; clear - P2 Q2; lia).
    rewrite (umul_ok _ 3 q4) by (unfold u64max; clear - P4 PQ4 Q4; lia).
    rewrite (umul_ok _ (3*q4) p2) by (rewrite D2; unfold u64max; clear - C1; lia).
    rewrite D1, D2 in *.
    set (x1 := (q2*(q2-4)*(q2-4))%Z) in *. set (x2 := (q2*p4)%Z) in *. set (x3 := (p2*p4)%Z) in *.
    set (x4 := (q4*p2)%Z) in *.
    assert (F2 : (0 <= x1 + 3*x2 - x3 + 8*p4 - 16*p2 - 3*x4)%Z) by (clear - F; lia).
    assert (P8 : (p4 <= 565*565*565*565)%Z) by (clear - PQ4 Q4; lia).
    assert (P9 : (p2 <= 565*565)%Z) by (clear - P2 Q2; lia).
    rewrite (uadd_ok _ x1) by (unfold u64max; clear - A2 B1; lia).
    rewrite (uminus_ok _ (x1 + 3*x2)) by (unfold u64max; clear - A2 B1 B2; lia).
    rewrite (uadd_ok _ (x1 + 3*x2 - x3)) by (unfold u64max; clear - A2 B1 B2 P4 P8; lia).
    rewrite (uminus_ok _ (x1 + 3*x2 - x3 + 8*p4)) by (unfold u64max; clear - A2 B1 B2 P4 P8 P2 P9 F2 C1; lia).
    rewrite (uminus_ok _ (x1 + 3*x2 - x3 + 8*p4 - 16*p2)) by (unfold u64max; clear - A2 B1 B2 P4 P8 P2 P9 F2 C1; lia).
    rewrite umul_ok by exact HR.
    rewrite E. reflexivity.
Qed.

Lemma dent3_debug p q : (0 <= p)%Z -> (p + 3 <= q)%Z -> (q < 11)%Z -> dent Debug 3 p q = Ok (iex 3 p q).
Proof.
  intros Hp Hpq Hq.
  assert (forall p q : nat, (p <= 7)%nat -> (q < 11)%nat -> (p + 3 <= q)%nat ->
    dent Debug 3 (Z.of_nat p) (Z.of_nat q) = Ok (iex 3 (Z.of_nat p) (Z.of_nat q))) as G.
  { clear. intros p q Hp Hq Hpq.
    assert (p = 0 \/ p = 1 \/ p = 2 \/ p = 3 \/ p = 4 \/ p = 5 \/ p = 6 \/ p = 7)%nat as HP by lia.
    assert (q = 3 \/ q = 4 \/ q = 5 \/ q = 6 \/ q = 7 \/ q = 8 \/ q = 9 \/ q = 10)%nat as HQ by lia.
    destruct HP as [->|[->|[->|[->|[->|[->|[->| ->]]]]]]]; destruct HQ as [->|[->|[->|[->|[->|[->|[->| ->]]]]]]];
      try lia; vm_compute; reflexivity. }
  rewrite <- (Z2Nat.id p), <- (Z2Nat.id q) by lia. apply G; lia.
Qed.

(** Sizes for which the entries of order d are computed without overflow. *)
Definition dsafe (bm : bmode) (d : nat) : Z :=
  match bm, d with Debug, 3%nat => 11%Z | _, _ => dbound d end.

Lemma dent_ok bm d p q : (1 <= d <= 4)%nat -> (0 <= p)%Z -> (p + Z.of_nat d <= q)%Z -> (q < dsafe bm d)%Z ->
  dent bm d p q = Ok (iex d p q).
Proof.
  intros Hd Hp Hpq Hq. destruct bm.
  - assert (d = 1 \/ d = 2 \/ d = 3 \/ d = 4)%nat as [->|[->|[->| ->]]] by lia.
    + apply dent_debug; auto.
    + apply dent_debug; auto.
    + apply dent3_debug; auto.
    + apply dent_debug; auto.
  - apply dent_release; auto.
Qed.

(** ** The matrix *)
Definition dden (d : nat) : R := match d with 3%nat => 4 | 4%nat => 24 | _ => 1 end.

Lemma dden_nz d : dden d <> 0.
Proof. unfold dden. destruct d as [|[|[|[|[|]]]]]; lra. Qed.

Definition dsel (d p q : nat) : bool := ((p + d <=? q) && ((p + q) mod 2 =? d mod 2))%nat.

(** Entry (p,q) of the exact differentiation matrix of order d. *)
Definition dex (d p q : nat) : R :=
  if dsel d p q then IZR (iex d (Z.of_nat p) (Z.of_nat q)) / dden d * (if (p =? 0)%nat then / 2 else 1) else 0.

Lemma dmat_fill_ok n off par e (ev : nat -> nat -> Z) den :
  (forall p q, (p < n)%nat -> (p + off <= q < n)%nat -> e (Z.of_nat p) (Z.of_nat q) = Ok (ev p q)) ->
  wp (dmat_fill (A := R) n off par e den) (fun M => mat_dims M n n /\
    forall p q, (p < n)%nat -> (q < n)%nat -> M.[p].[q] =
      if ((p + off <=? q) && ((p + q) mod 2 =? par))%nat then IZR (ev p q) / den else 0).
Proof.
  intros He. unfold dmat_fill.
  apply (wp_for_each_range 0 n _ (fun i M => mat_dims M n n /\
    forall p q, (p < n)%nat -> (q < n)%nat -> M.[p].[q] =
      if ((p <? i) && (p + off <=? q) && ((p + q) mod 2 =? par))%nat then IZR (ev p q) / den else 0)).
  - lia.
  - split. apply mzeros_dims. intros p q Hp Hq. simpl. apply mzeros_at.
  - intros i M Hi [HD HM].
    apply (wp_for_each_range0 (i+off) n _ (fun k M => mat_dims M n n /\
      forall p q, (p < n)%nat -> (q < n)%nat -> M.[p].[q] =
       if (((p <? i) || ((p =? i) && (q <? k))) && (p + off <=? q) && ((p + q) mod 2 =? par))%nat then IZR (ev p q) / den else 0)).
    + split; auto. intros p q Hp Hq. rewrite HM by auto.
      destruct (Nat.ltb_spec p i); simpl; auto.
      destruct (Nat.eqb_spec p i); simpl; auto. subst.
      destruct (Nat.ltb_spec q (i+off)); simpl; auto. destruct (Nat.leb_spec (i+off) q); simpl; auto. lia.
    + intros k M' Hk [HD' HM'].
      destruct (Nat.eqb_spec ((i+k) mod 2) par).
      * apply wp_bind. rewrite (He i k) by lia. apply wp_Ok; eexists; split; [reflexivity|].
        apply (wp_mwr M' n n); auto; try lia. intros M'' HD'' E F. split; auto.
        intros p q Hp Hq. destruct (Nat.eq_dec p i) as [->|]; [destruct (Nat.eq_dec q k) as [->|]|].
        -- rewrite E. rewrite Nat.eqb_refl. destruct (Nat.ltb_spec k (k+1)); try lia.
           destruct (Nat.leb_spec (i+off) k); try lia. rewrite orb_true_r.
           destruct (Nat.eqb_spec ((i+k) mod 2) par); try congruence. reflexivity.
        -- rewrite F by auto. rewrite HM' by auto. rewrite Nat.eqb_refl.
           destruct (Nat.ltb_spec q k), (Nat.ltb_spec q (k+1)); try lia; auto.
        -- rewrite F by auto. rewrite HM' by auto. destruct (Nat.eqb_spec p i); try lia. simpl. auto.
      * apply wp_Ok; eexists; split; [reflexivity|]. split; auto. intros p q Hp Hq. rewrite HM' by auto.
        destruct (Nat.eqb_spec p i); auto. subst.
        destruct (Nat.ltb_spec q k), (Nat.ltb_spec q (k+1)); try lia; auto.
        replace q with k by lia. destruct (Nat.eqb_spec ((i+k) mod 2) par); try congruence.
        rewrite !andb_false_r. reflexivity.
    + intros M' [HD' HM']. split; auto. intros p q Hp Hq. rewrite HM' by auto.
      destruct (Nat.ltb_spec p i), (Nat.ltb_spec p (i+1)); simpl; auto; try lia.
      * destruct (Nat.eqb_spec p i); try lia. simpl. subst.
        destruct (Nat.ltb_spec q (Nat.max (i+off) n)); simpl; auto; lia.
      * destruct (Nat.eqb_spec p i); try lia. simpl. auto.
  - intros M [HD HM]. split; auto. intros p q Hp Hq. rewrite HM by auto.
    destruct (Nat.ltb_spec p n); try lia. auto.
Qed.

Definition matches (n : nat) (M : list (list R)) (f : nat -> nat -> R) : Prop :=
  mat_dims M n n /\ forall p q, (p < n)%nat -> (q < n)%nat -> M.[p].[q] = f p q.

Lemma dmat_ok bm n d : (1 <= n)%nat -> (1 <= d <= 4)%nat -> (Z.of_nat n <= dsafe bm d)%Z ->
  wp (dmat (A := R) bm n d) (fun M => matches n M (dex d)).
Proof.
  intros Hn Hd Hs. unfold dmat. apply wp_bind.
  apply (wp_mono _ (fun M => mat_dims M n n /\ forall p q, (p < n)%nat -> (q < n)%nat -> M.[p].[q] =
      if dsel d p q then IZR (iex d (Z.of_nat p) (Z.of_nat q)) / dden d else 0)).
  - assert (G : forall p q : nat, (p < n)%nat -> (p + d <= q < n)%nat ->
      dent bm d (Z.of_nat p) (Z.of_nat q) = Ok (iex d (Z.of_nat p) (Z.of_nat q))).
    { intros. apply dent_ok; auto; lia. }
    assert (d = 1 \/ d = 2 \/ d = 3 \/ d = 4)%nat as [->|[->|[->| ->]]] by lia;
    apply (dmat_fill_ok n _ _ _ (fun p q => iex _ (Z.of_nat p) (Z.of_nat q))); exact G.
  - intros M [HD HM]. apply wp_bind. destruct HD as [HL HR]. apply wp_rd. lia.
    apply wp_wr. lia. intros M' HL' E F. split.
    + split. lia. intros i Hi. destruct (Nat.eq_dec i 0) as [->|].
      rewrite E, map_length. auto. rewrite F; auto.
    + intros p q Hp Hq. unfold dex. destruct (Nat.eq_dec p 0) as [->|].
      * rewrite E. rewrite at_map by (rewrite HR; auto). rewrite HM by auto. simpl (0 =? 0)%nat. cbv iota.
        numR. destruct (dsel d 0 q); field; apply dden_nz.
      * rewrite F by auto. rewrite HM by auto. destruct (Nat.eqb_spec p 0); try lia. destruct (dsel d p q); field; apply dden_nz.
Qed.

(** ** Columns satisfy the derivative recurrence *)
Definition pex (d : nat) (p q : R) : R :=
  match d with
  | 1%nat => 2 * q
  | 2%nat => q * (q*q - p*p)
  | 3%nat => q * (((q-p)*(q-p) - 1) * ((q+p)*(q+p) - 1)) / 4
  | 4%nat => q * ((q*q - p*p) * ((q-p)*(q-p) - 4) * ((q+p)*(q+p) - 4)) / 24
  | _ => 0
  end.

Lemma iex_pex d p q : (1 <= d <= 4)%nat -> IZR (iex d (Z.of_nat p) (Z.of_nat q)) / dden d = pex d (INR p) (INR q).
Proof.
  intros Hd. assert (d = 1 \/ d = 2 \/ d = 3 \/ d = 4)%nat as [->|[->|[->| ->]]] by lia;
  cbn [iex dden pex];
  repeat rewrite ?mult_IZR, ?minus_IZR, ?plus_IZR; rewrite !IZR_INR; field.
Qed.

Lemma dex_pex d p q : (1 <= d <= 4)%nat ->
  dex d p q = if dsel d p q then pex d (INR p) (INR q) * (if (p =? 0)%nat then / 2 else 1) else 0.
Proof. intros. unfold dex. rewrite iex_pex by auto. auto. Qed.

Definition dex0 (p q : nat) : R := if (p =? q)%nat then 1 else 0.
Definition dexn (d : nat) : nat -> nat -> R := match d with O => dex0 | _ => dex d end.

Lemma dsel_spec d p q : dsel d p q = true <-> exists k, q = (p + d + 2 * k)%nat.
Proof.
  unfold dsel. rewrite andb_true_iff, Nat.leb_le, Nat.eqb_eq.
  pose proof (Nat.div_mod_eq (p+q) 2). pose proof (Nat.div_mod_eq d 2).
  pose proof (Nat.mod_upper_bound (p+q) 2). pose proof (Nat.mod_upper_bound d 2).
  split.
  - intros [H3 H4]. exists ((q - p - d) / 2)%nat. pose proof (Nat.div_mod_eq (q-p-d) 2).
    pose proof (Nat.mod_upper_bound (q-p-d) 2). lia.
  - intros [k ->]. split. lia.
    replace (p + (p + d + 2*k))%nat with (d + (p + k) * 2)%nat by lia. rewrite Nat.mod_add by lia. auto.
Qed.

Lemma dsel_true d p q k : q = (p + d + 2 * k)%nat -> dsel d p q = true.
Proof. intros. apply dsel_spec. eauto. Qed.
Lemma dsel_false d p q : (forall k, q <> (p + d + 2 * k)%nat) -> dsel d p q = false.
Proof.
  intros. destruct (dsel d p q) eqn:E; auto. apply dsel_spec in E. destruct E as [k E]. elim (H k); auto.
Qed.

Lemma dsel_step d k q : dsel d (k+2) q = true -> dsel d k q = true.
Proof. rewrite !dsel_spec. intros [j ->]. exists (j+1)%nat. lia. Qed.
Lemma dsel_shift d k q : (1 <= d)%nat -> dsel (d-1) (k+1) q = dsel d k q.
Proof.
  intros. apply eq_true_iff_eq. rewrite !dsel_spec. split; intros [j ->]; exists j; lia.
Qed.

Lemma pex_step d p q : (2 <= d <= 4)%nat -> pex d p q - pex d (p+2) q = 2 * (p+1) * pex (d-1) (p+1) q.
Proof.
  intros Hd. assert (d = 2 \/ d = 3 \/ d = 4)%nat as [->|[->| ->]] by lia; cbn [pex Nat.sub]; field.
Qed.
Lemma pex_zero d p : (2 <= d <= 4)%nat -> pex d (p+2) (p + INR d) = 0.
Proof.
  intros Hd. assert (d = 2 \/ d = 3 \/ d = 4)%nat as [->|[->| ->]] by lia; cbn [pex INR]; field.
Qed.

Lemma dex_grad_rec d q : (1 <= d <= 4)%nat -> grad_rec (fun k => dexn (d-1) k q) (fun k => dexn d k q).
Proof.
  intros Hd.
  assert (S : forall k, (if dsel d k q then pex d (INR k) (INR q) else 0) =
     2 * INR (k+1) * dexn (d-1) (k+1) q + dex d (k+2) q).
  { intros k. rewrite dex_pex by auto. replace (k+2 =? 0)%nat with false by (destruct k; auto).
    rewrite Rmult_1_r.
    destruct (Nat.eq_dec d 1) as [->|Hd1].
    - change (1-1)%nat with 0%nat. unfold dexn, dex0.
      destruct (dsel 1 k q) eqn:E1.
      + apply dsel_spec in E1. destruct E1 as [j E1]. destruct j.
        * replace (k+1 =? q)%nat with true by (symmetry; apply Nat.eqb_eq; lia).
          rewrite dsel_false by (intros; lia). cbn [pex]. subst q. replace (k+1+2*0)%nat with (k+1)%nat by lia. ring.
        * replace (k+1 =? q)%nat with false by (symmetry; apply Nat.eqb_neq; lia).
          rewrite (dsel_true 1 (k+2) q j) by lia. cbn [pex]. ring.
      + destruct (Nat.eqb_spec (k+1) q). { rewrite (dsel_true 1 k q 0) in E1 by lia. discriminate. }
        destruct (dsel 1 (k+2) q) eqn:E2. apply dsel_step in E2. congruence. ring.
    - destruct d as [|d]; [lia|]. replace (S d - 1)%nat with d by lia.
      destruct d as [|d]; [lia|]. unfold dexn. rewrite dex_pex by lia.
      replace (dsel (S d) (k+1) q) with (dsel (S (S d)) k q).
      2:{ rewrite <- (dsel_shift (S (S d))) by lia. f_equal; lia. }
      replace (k+1 =? 0)%nat with false by (destruct k; auto). rewrite Rmult_1_r.
      destruct (dsel (S (S d)) k q) eqn:E1.
      + pose proof (pex_step (S (S d)) (INR k) (INR q) ltac:(lia)) as HS.
        replace (S (S d) - 1)%nat with (S d) in HS by lia. rewrite !plus_INR. change (INR 1) with 1. change (INR 2) with 2.
        destruct (dsel (S (S d)) (k+2) q) eqn:E2; [lra|].
        apply dsel_spec in E1. destruct E1 as [j E1]. destruct j.
        2:{ rewrite (dsel_true _ (k+2) q j) in E2 by lia. discriminate. }
        assert (Hz : pex (S (S d)) (INR k + 2) (INR q) = 0).
        { replace (INR q) with (INR k + INR (S (S d))) by (subst q; rewrite <- plus_INR; f_equal; lia).
          apply pex_zero; lia. }
        lra.
      + destruct (dsel (S (S d)) (k+2) q) eqn:E2. apply dsel_step in E2. congruence. ring. }
  assert (D : dexn d = dex d) by (destruct d; [lia|reflexivity]). rewrite D.
  split.
  - pose proof (S 0%nat) as S0. rewrite dex_pex by auto. simpl (0 =? 0)%nat. cbv iota.
    simpl Nat.add in S0. simpl INR in S0. simpl INR. rewrite Rmult_1_r in S0. rewrite <- S0.
    destruct (dsel d 0 q); simpl INR; field.
  - intros k Hk. rewrite <- S. rewrite dex_pex by auto. destruct (Nat.eqb_spec k 0); [lia|].
    destruct (dsel d k q); ring.
Qed.

Lemma grad_rec_sum n (c : nat -> R) (F G : nat -> nat -> R) :
  (forall q, grad_rec (fun k => F k q) (fun k => G k q)) ->
  grad_rec (fun k => rsum n (fun q => c q * F k q)) (fun k => rsum n (fun q => c q * G k q)).
Proof.
  intros H. split.
  - rewrite <- !rsum_scal_l, <- rsum_add. apply rsum_ext. intros q _. destruct (H q) as [H0 _].
    replace (2 * (c q * G 0%nat q)) with (c q * (2 * G 0%nat q)) by ring. rewrite H0. ring.
  - intros k Hk. rewrite <- rsum_scal_l, <- rsum_add. apply rsum_ext. intros q _. destruct (H q) as [_ H1].
    rewrite (H1 k) by auto. ring.
Qed.

Lemma dexn_over d p q : (1 <= d <= 4)%nat -> (q <= p)%nat -> dexn d p q = 0.
Proof.
  intros Hd Hpq. destruct d; [lia|]. unfold dexn. rewrite dex_pex by auto. rewrite dsel_false; auto. intros; lia.
Qed.

Section Apply.
Context {T : Type} {V : Vec R T} {L : VecR T}.

(** gradient = matrix product *)
Lemma gradient_matrix c (a out : list T) d :
  (3 <= c_m c)%nat -> length a = c_m c -> length out = c_m c -> (d <= 4)%nat ->
  wp (cheb_gradient c a out d) (fun b => is_matvec (c_m c) (c_m c) (dexn d) a b).
Proof.
  intros Hm La Lo Hd. unfold cheb_gradient. wpus. rewrite zip_write_full by lia.
  set (m := c_m c) in *.
  apply (wp_for_each_range 0 d _ (fun i b => length b = m /\ forall p k, (coord p b k) = rsum m (fun q => coord p a q * dexn i k q))).
  - lia.
  - split; auto. intros p k. unfold dexn, dex0.
    rewrite (rsum_ext _ _ (fun q => coord p a q * (if (q =? k)%nat then 1 else 0))).
    2:{ intros; rewrite Nat.eqb_sym; auto. }
    rewrite rsum_ind_mul. destruct (Nat.ltb_spec k m); auto. apply coord_over; lia.
  - intros i b Hi (Lb & Hb). eapply wp_mono. { apply grad_once_ok; auto. }
    cbv beta. intros b' (Lb' & G). split; auto. intros p.
    apply (grad_rec_unique m (coord p b)).
    + intros; apply coord_over; lia.
    + intros k Hk. apply rsum_0. intros q Hq. rewrite dexn_over by lia. ring.
    + apply G.
    + eapply grad_rec_ext; [| |apply (grad_rec_sum m (coord p a) (dexn i) (dexn (i+1)))].
      * intros k. symmetry. apply Hb.
      * auto.
      * intros q. pose proof (dex_grad_rec (i+1) q ltac:(lia)) as GR.
        replace (i+1-1)%nat with i in GR by lia. exact GR.
  - intros b (Lb & Hb). split; auto. intros i Hi. apply vext. intros p. rewrite vproj_vsum.
    rewrite (rsum_ext _ _ (fun q => coord p a q * dexn d i q)) by (intros; apply vproj_mul). apply Hb.
Qed.
End Apply.

(** ** Overflow: where the integer arithmetic fails *)
Lemma for_each_panic {I S} (l : list I) (body : I -> S -> res S) s x :
  (forall i s, body i s <> UB) -> In x l -> (forall s, body x s = Panic) -> for_each l body s = Panic.
Proof.
  intros HU Hx HP. revert s. induction l as [|y l IH]; intros; simpl in *. contradiction.
  destruct Hx as [->|Hx]. rewrite HP; auto.
  destruct (body y s) eqn:E; simpl; auto. elim (HU y s); auto.
Qed.
Lemma for_each_noUB {I S} (l : list I) (body : I -> S -> res S) s :
  (forall i s, body i s <> UB) -> for_each l body s <> UB.
Proof.
  intros HU. revert s. induction l as [|y l IH]; intros; simpl. discriminate.
  destruct (body y s) eqn:E; simpl; auto. discriminate. elim (HU y s); auto.
Qed.

Lemma mwr_noUB {A} (M : list (list A)) i j x : mwr M i j x <> UB.
Proof.
  unfold mwr, rd, wr. destruct (nth_error M i); simpl; try discriminate.
  destruct (j <? length l)%nat; simpl; try discriminate. destruct (i <? length M)%nat; simpl; discriminate.
Qed.

Lemma uwrap_noUB bm z : uwrap bm z <> UB.
Proof. unfold uwrap. destruct (_ && _); [|destruct bm]; discriminate. Qed.

Lemma dmat_fill_panic n off par e (den : R) p q :
  (forall p q, e p q <> UB) -> (p < n)%nat -> (p + off <= q < n)%nat -> ((p + q) mod 2 = par)%nat ->
  e (Z.of_nat p) (Z.of_nat q) = Panic -> dmat_fill n off par e den = Panic.
Proof.
  intros HU Hp Hq Hpar He. unfold dmat_fill.
  assert (B : forall p q (mat : list (list R)), (if ((p + q) mod 2 =? par)%nat then
        let* z := e (Z.of_nat p) (Z.of_nat q) in mwr mat p q (ndiv (nofZ z) den)
      else Ok mat) <> UB).
  { intros. destruct (_ =? _)%nat; [|discriminate].
    destruct (e (Z.of_nat p0) (Z.of_nat q0)) eqn:E; simpl; try discriminate. apply mwr_noUB. elim (HU _ _ E). }
  apply (for_each_panic _ _ _ p).
  - intros. apply for_each_noUB. intros; apply B.
  - apply in_seq; lia.
  - intros. apply (for_each_panic _ _ _ q).
    + intros; apply B.
    + apply in_seq; lia.
    + intros. rewrite Hpar, Nat.eqb_refl, He. reflexivity.
Qed.

Lemma bind_noUB {A B} (m : res A) (k : A -> res B) : m <> UB -> (forall a, k a <> UB) -> bind m k <> UB.
Proof. destruct m; simpl; auto; congruence. Qed.

Lemma dent3_noUB bm p q : dent3 bm p q <> UB.
Proof.
  unfold dent3, uadd, umul, uminus.
  repeat (apply bind_noUB; [| intros ]; try (apply uwrap_noUB)); try discriminate; try apply uwrap_noUB.
Qed.
Lemma dent4_noUB bm p q : dent4 bm p q <> UB.
Proof.
  unfold dent4, uadd, umul, uminus.
  repeat (apply bind_noUB; [| intros ]; try (apply uwrap_noUB)); try discriminate; try apply uwrap_noUB.
Qed.

Lemma dmat3_debug_panics n : (12 <= n)%nat -> dmat (A := R) Debug n 3 = Panic.
Proof.
  intros. unfold dmat. rewrite (dmat_fill_panic n 3 1 (dent3 Debug) _ 8 11); auto; try lia.
  apply dent3_noUB.
Qed.
Lemma dmat4_debug_panics n : (567 <= n)%nat -> dmat (A := R) Debug n 4 = Panic.
Proof.
  intros. unfold dmat. rewrite (dmat_fill_panic n 4 0 (dent4 Debug) _ 0 566); auto; try lia.
  apply dent4_noUB.
Qed.

(** Release build, order 4, n >= 567: the product wraps and entry (0,566) is wrong. *)
Lemma dmat4_release_wrong n : (567 <= n)%nat -> (Z.of_nat n < u64max)%Z ->
  wp (dmat (A := R) Release n 4) (fun M => mat_dims M n n /\ M.[0].[566] <> dex 4 0 566).
Proof.
  intros Hn Hb. unfold dmat. apply wp_bind.
  eapply wp_mono.
  { apply (dmat_fill_ok n _ _ _ (fun p q => (iex 4 (Z.of_nat p) (Z.of_nat q) mod u64max)%Z)).
    intros p q Hp Hq. apply rmod_valm. apply (dent_rel 4); lia. }
  intros M [[HL HR] HM]. apply wp_bind. apply wp_rd. lia.
  apply wp_wr. lia. intros M' HL' E F. split.
  - split. lia. intros i Hi. destruct (Nat.eq_dec i 0) as [->|].
    rewrite E, map_length. auto. rewrite F; auto.
  - rewrite E. rewrite at_map by (rewrite HR; lia). rewrite HM by lia.
    unfold dex. change (dsel 4 0 566) with true. change ((0 + 4 <=? 566) && ((0 + 566) mod 2 =? 0))%nat with true.
    cbv iota. simpl (0 =? 0)%nat. cbv iota.
    set (z1 := (iex 4 (Z.of_nat 0) (Z.of_nat 566) mod u64max)%Z). set (z2 := iex 4 (Z.of_nat 0) (Z.of_nat 566)).
    numR. cbn [dden]. intros H.
    assert (IZR z1 = IZR z2) by lra. apply eq_IZR in H0. vm_compute in H0. discriminate.
Qed.

