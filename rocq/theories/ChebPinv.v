(** Pseudo inverses of the differentiation matrices (Cheb.pinv). *)
From Coq Require Import List Arith Lia Bool ZArith Reals Lra.
From Verif Require Import Base Num Linalg LinalgProofs StencilProofs StencilProofs2 Cheb ChebPoly ChebGrad ChebMat.
Import ListNotations.
Local Open Scope R_scope.

(** ** Pseudo inverse *)
Definition msetcol (P : nat -> nat -> R) (lo hi : nat) (col : nat -> nat) (v : nat -> R) (i j : nat) : R :=
  if ((lo <=? i) && (i <? hi) && (j =? col i))%nat then v i else P i j.

Lemma ediag_ok n P f lo hi col (v : nat -> R) :
  matches n P f -> (hi <= n)%nat -> (forall i, (lo <= i < hi)%nat -> (col i < n)%nat) ->
  wp (for_each (range lo hi) (fun i P => mwr P i (col i) (v i)) P)
     (fun P' => matches n P' (msetcol f lo hi col v)).
Proof.
  intros HP Hhi Hc.
  apply (wp_for_each_range0 lo hi _ (fun k P' => matches n P' (msetcol f lo k col v))).
  - destruct HP as [HD HM]. split; auto. intros p q Hp Hq. rewrite HM by auto. unfold msetcol.
    destruct (Nat.leb_spec lo p), (Nat.ltb_spec p lo); simpl; auto; lia.
  - intros i P' Hi [HD HM]. apply (wp_mwr P' n n); auto; try lia. intros P'' HD'' E F. split; auto.
    intros p q Hp Hq. unfold msetcol in *. destruct (Nat.eq_dec p i) as [->|]; [destruct (Nat.eq_dec q (col i)) as [->|]|].
    + rewrite E. rewrite Nat.eqb_refl. destruct (Nat.leb_spec lo i), (Nat.ltb_spec i (i+1)); simpl; try lia. auto.
    + rewrite F by auto. rewrite HM by auto. destruct (Nat.eqb_spec q (col i)); try lia. rewrite !andb_false_r. auto.
    + rewrite F by auto. rewrite HM by auto.
      destruct (Nat.ltb_spec p i), (Nat.ltb_spec p (i+1)); auto; lia.
  - intros P' [HD HM]. split; auto. intros p q Hp Hq. rewrite HM by auto. unfold msetcol.
    destruct (le_dec lo hi).
    + rewrite Nat.max_r by lia. auto.
    + rewrite Nat.max_l by lia. destruct (Nat.leb_spec lo p), (Nat.ltb_spec p lo), (Nat.ltb_spec p hi); simpl; auto; lia.
Qed.

Lemma for_each_ext_in {I S} (l : list I) (f g : I -> S -> res S) s :
  (forall i s, In i l -> f i s = g i s) -> for_each l f s = for_each l g s.
Proof.
  revert s. induction l; intros s H; cbn [for_each]; auto. rewrite H by (left; auto).
  destruct (g a s); cbn [bind]; auto. apply IHl. intros. apply H. right; auto.
Qed.

Lemma pdiag_ok n P f lo hi col num dv dz :
  matches n P f -> (0 <= hi <= Z.of_nat n)%Z -> (forall i, (lo <= i)%nat -> (Z.of_nat i < hi)%Z -> (col i < n)%nat) ->
  (forall i, (lo <= i)%nat -> (Z.of_nat i < hi)%Z -> dv (Z.of_nat i) = Ok (dz i)) ->
  wp (pdiag (A := R) P lo hi col num dv)
     (fun P' => matches n P' (msetcol f lo (Z.to_nat hi) col (fun i => IZR num / IZR (dz i)))).
Proof.
  intros HP Hhi Hc Hd. unfold pdiag.
  rewrite (for_each_ext_in _ _ (fun i P => mwr P i (col i) (IZR num / IZR (dz i)))).
  - apply ediag_ok; auto; try lia. intros i Hi. apply Hc; lia.
  - intros i s Hi. apply in_seq in Hi. rewrite Hd by lia. reflexivity.
Qed.

(** 64-bit arithmetic on values with known bounds *)
Definition is_in (x : res Z) (z B : Z) : Prop := x = Ok z /\ (0 <= z <= B)%Z.
Lemma is_in_eq x z B : is_in x z B -> x = Ok z.
Proof. intros [H _]; exact H. Qed.
Lemma is_in_lit z : (0 <= z)%Z -> is_in (Ok z) z z.
Proof. split; [auto|lia]. Qed.
Lemma is_in_var z B : (0 <= z <= B)%Z -> is_in (Ok z) z B.
Proof. split; auto. Qed.
Lemma uwrap_ok bm z : (0 <= z < u64max)%Z -> uwrap bm z = Ok z.
Proof. intros. unfold uwrap. destruct (Z.leb_spec 0 z), (Z.ltb_spec z u64max); auto; lia. Qed.
Lemma is_in_mul bm x y a b A B : is_in x a A -> is_in y b B -> (A * B < u64max)%Z -> is_in (umul bm x y) (a * b) (A * B).
Proof.
  intros [-> Ha] [-> Hb] H. assert (0 <= a * b <= A * B)%Z by nia.
  split; auto. unfold umul. cbn [bind]. apply uwrap_ok. lia.
Qed.
Lemma is_in_add bm x y a b A B : is_in x a A -> is_in y b B -> (A + B < u64max)%Z -> is_in (uadd bm x y) (a + b) (A + B).
Proof. intros [-> Ha] [-> Hb] H. split; [|lia]. unfold uadd. cbn [bind]. apply uwrap_ok. lia. Qed.
Lemma is_in_sub bm x a b A : is_in x a A -> (0 <= b <= a)%Z -> (A < u64max)%Z -> is_in (uminus bm x (Ok b)) (a - b) (A - b).
Proof. intros [-> Ha] Hb H. split; [|lia]. unfold uminus. cbn [bind]. apply uwrap_ok. lia. Qed.

Lemma mdouble_ok n P f i j : matches n P f -> (i < n)%nat -> (j < n)%nat ->
  wp (mdouble (A := R) P i j) (fun P' => matches n P' (fun p q => if ((p =? i) && (q =? j))%nat then f i j * 2 else f p q)).
Proof.
  intros [HD HM] Hi Hj. unfold mdouble. apply wp_bind. apply (wp_mrd P n n); auto.
  apply (wp_mwr P n n); auto. intros P' HD' E F. split; auto. intros p q Hp Hq.
  destruct (Nat.eqb_spec p i); [subst p; destruct (Nat.eqb_spec q j); [subst q|]|]; cbn [andb].
  - rewrite E, HM by auto. reflexivity.
  - rewrite F, HM by auto. auto.
  - rewrite F, HM by auto. auto.
Qed.

Lemma wr_ok n P f i j x : matches n P f -> (i < n)%nat -> (j < n)%nat ->
  wp (mwr P i j x) (fun P' => matches n P' (fun p q => if ((p =? i) && (q =? j))%nat then x else f p q)).
Proof.
  intros [HD HM] Hi Hj. apply (wp_mwr P n n); auto. intros P' HD' E F. split; auto. intros p q Hp Hq.
  destruct (Nat.eqb_spec p i); [subst p; destruct (Nat.eqb_spec q j); [subst q|]|]; cbn [andb].
  - rewrite E by auto. reflexivity.
  - rewrite F, HM by auto. auto.
  - rewrite F, HM by auto. auto.
Qed.

(** The coefficient of P at (i, i-d+2t). *)
Definition pco (d t i : nat) : R :=
  let x := INR i in
  match d, t with
  | 1%nat, 0%nat => (if (i =? 1)%nat then 1 else 1 / (2*x))
  | 1%nat, 1%nat => - (1) / (2*x)
  | 2%nat, 0%nat => (if (i =? 2)%nat then 1/4 else 1 / (4*x*(x-1)))
  | 2%nat, 1%nat => - (1) / (2*(x*x-1))
  | 2%nat, 2%nat => 1 / (4*x*(x+1))
  | 3%nat, 0%nat => (if (i =? 3)%nat then 2 else 1) * (1 / (8*x*(x-1)*(x-2)))
  | 3%nat, 1%nat => - (3) / (8*(x+1)*(x-2)*x)
  | 3%nat, 2%nat => 3 / (8*(x-1)*(x+2)*x)
  | 3%nat, 3%nat => - (1) / (8*x*(x+1)*(x+2))
  | 4%nat, 0%nat => (if (i =? 4)%nat then 2 else 1) * (1 / (16*x*(x-1)*(x-2)*(x-3)))
  | 4%nat, 1%nat => - (1) / (4*(x-3)*(x-1)*x*(x+1))
  | 4%nat, 2%nat => 3 / (8*(x-2)*(x-1)*(x+1)*(x+2))
  | 4%nat, 3%nat => - (1) / (4*(x-1)*x*(x+1)*(x+3))
  | 4%nat, 4%nat => 1 / (16*x*(x+1)*(x+2)*(x+3))
  | _, _ => 0
  end.

(** P as a sum of its diagonals *)
Definition psum (n d i j : nat) : R :=
  if (i <? d)%nat then 0 else
  rsum (S d) (fun t => if (j =? i - d + 2*t)%nat then (if (i + 2*t <? n)%nat then pco d t i else 0) else 0).

Ltac natR := repeat first [ rewrite mult_INR | rewrite plus_INR | rewrite minus_INR by first [lia | nia] ];
  simpl INR.

Ltac bdestr := repeat match goal with
    | |- context [(?x =? ?y)%nat] => destruct (Nat.eqb_spec x y); try lia
    | |- context [(?x <=? ?y)%nat] => destruct (Nat.leb_spec x y); try lia
    | |- context [(?x <? ?y)%nat] => destruct (Nat.ltb_spec x y); try lia
  end; cbn [andb].

(** Sizes up to which no product of [_pinv] overflows. *)
Definition psafe (d : nat) : Z :=
  match d with 1%nat => u64max - 1 | 2%nat => 2147483649 | 3%nat => 1321124 | _ => 32770 end%Z.

Ltac isin B := match goal with
  | |- is_in (Ok (Z.of_nat _)) _ _ => apply (is_in_var _ B); lia
  | |- is_in (Ok _) _ _ => apply is_in_lit; lia
  | |- is_in (umul _ _ _) _ _ => eapply is_in_mul; [isin B|isin B|reflexivity]
  | |- is_in (uadd _ _ _) _ _ => eapply is_in_add; [isin B|isin B|reflexivity]
  | |- is_in (uminus _ (umul _ _ _) _) _ _ => eapply is_in_sub; [isin B|nia|reflexivity]
  | |- is_in (uminus _ _ _) _ _ => eapply is_in_sub; [isin B|lia|reflexivity]
  end.

Lemma uminus_n bm n d k : (2 * d <= n)%nat -> (1 <= d <= 4)%nat -> (Z.of_nat n <= psafe d)%Z -> (0 <= k <= Z.of_nat n)%Z ->
  uminus bm (Ok (Z.of_nat n)) (Ok k) = Ok (Z.of_nat n - k)%Z.
Proof.
  intros _ Hd Hs Hk. unfold uminus. cbn [bind]. apply uwrap_ok.
  assert (psafe d < u64max)%Z by (destruct d as [|[|[|[|d]]]]; reflexivity). lia.
Qed.

Ltac pd B := eapply pdiag_ok; [eassumption|lia|intros; lia|
  let i := fresh "i" in intros i ? ?; cbv beta; eapply is_in_eq; isin B].
Ltac pb B := apply wp_bind; eapply wp_mono; [pd B|]; intros ? ?; cbv beta in *.
Ltac pu := apply wp_bind; rewrite (uminus_n _ _ _ _ ltac:(eassumption) ltac:(eassumption) ltac:(eassumption)) by lia; cbn [wp].
Ltac pz := repeat match goal with H : context [Z.to_nat (Z.of_nat ?n - ?k)] |- _ =>
    let v := eval compute in (Z.to_nat k) in replace (Z.to_nat (Z.of_nat n - k)) with (n - v)%nat in H by lia end;
    rewrite ?Nat2Z.id in *.
Ltac pfin d i :=
    repeat match goal with |- context [(i + 2 * ?t)%nat] => let v := eval compute in (2*t)%nat in
       progress change (i + 2*t)%nat with (i + v)%nat end;
    bdestr; subst; try lia; numR; rewrite ?mult_IZR, ?plus_IZR, ?minus_IZR, <- ?INR_IZR_INZ, ?mult_IZR, ?plus_IZR, ?minus_IZR, <- ?INR_IZR_INZ; simpl INR; try lra;
    try (assert (INR d <= INR i) by (apply le_INR; lia); simpl INR in *);
    field; repeat split; first [ lra | intro; nra ].

Lemma pinv1_ok bm n : (2 <= n)%nat -> (Z.of_nat n <= psafe 1)%Z -> wp (pinv (A := R) bm n 1) (fun P => matches n P (psum n 1)).
Proof.
  intros Hn Hs. assert (Hn' : (2 * 1 <= n)%nat) by lia. assert (Hd : (1 <= 1 <= 4)%nat) by lia.
  assert (M0 : matches n (mzeros 0 n n) (fun _ _ => 0)).
  { split. apply mzeros_dims. intros. apply mzeros_at. }
  unfold pinv; cbv zeta iota.
  apply wp_bind; eapply wp_mono; [eapply wr_ok; [eassumption|lia|lia]|]; intros P1 H1; cbv beta in *.
  apply wp_bind; eapply wp_mono; [eapply (ediag_ok n _ _ 2 n (fun i => (i-1)%nat)); [eassumption|lia|intros; lia]|]; intros P2 H2; cbv beta in *.
  pu. replace (Z.to_nat (Z.of_nat n - 2)) with (n - 2)%nat by lia.
  eapply wp_mono; [eapply (ediag_ok n _ _ 1 (n-2) (fun i => (i+1)%nat)); [eassumption|lia|intros; lia]|]; intros P3 [D3 H3]; cbv beta in *.
  split; auto. intros i j Hi Hj. rewrite H3 by auto. unfold msetcol, psum. cbn [rsum pco].
  rewrite <- ?INR_IZR_INZ. pfin 1%nat i.
Qed.

Lemma pinv2_ok bm n : (4 <= n)%nat -> (Z.of_nat n <= psafe 2)%Z -> wp (pinv (A := R) bm n 2) (fun P => matches n P (psum n 2)).
Proof.
  intros Hn Hs. assert (Hn' : (2 * 2 <= n)%nat) by lia. assert (Hd : (1 <= 2 <= 4)%nat) by lia.
  assert (M0 : matches n (mzeros 0 n n) (fun _ _ => 0)).
  { split. apply mzeros_dims. intros. apply mzeros_at. }
  unfold pinv; cbv zeta iota. pose proof Hs as Hs'. cbn [psafe] in Hs'.
  apply wp_bind; eapply wp_mono; [eapply wr_ok; [eassumption|lia|lia]|]; intros P1 H1; cbv beta in *.
  pb 2147483648%Z. pu. pb 2147483646%Z. pu. eapply wp_mono; [pd 2147483644%Z|]. intros P [HD HM]; cbv beta in *. pz.
  split; auto. intros i j Hi Hj. rewrite HM by auto. clear - Hn Hi Hj. unfold msetcol, psum. cbn [rsum pco]. pfin 2%nat i.
Qed.

Lemma pinv3_ok bm n : (6 <= n)%nat -> (Z.of_nat n <= psafe 3)%Z -> wp (pinv (A := R) bm n 3) (fun P => matches n P (psum n 3)).
Proof.
  intros Hn Hs. assert (Hn' : (2 * 3 <= n)%nat) by lia. assert (Hd : (1 <= 3 <= 4)%nat) by lia.
  assert (M0 : matches n (mzeros 0 n n) (fun _ _ => 0)).
  { split. apply mzeros_dims. intros. apply mzeros_at. }
  unfold pinv; cbv zeta iota. pose proof Hs as Hs'. cbn [psafe] in Hs'.
  pb 1321123%Z.
  apply wp_bind; eapply wp_mono; [eapply mdouble_ok; [eassumption|lia|lia]|]; intros ? ?; cbv beta in *.
  pu. pb 1321121%Z. pu. pb 1321119%Z. pu. eapply wp_mono; [pd 1321117%Z|]. intros P [HD HM]; cbv beta in *. pz.
  split; auto. intros i j Hi Hj. rewrite HM by auto. clear - Hn Hi Hj. unfold msetcol, psum. cbn [rsum pco]. pfin 3%nat i.
Qed.

Lemma pinv4_ok bm n : (8 <= n)%nat -> (Z.of_nat n <= psafe 4)%Z -> wp (pinv (A := R) bm n 4) (fun P => matches n P (psum n 4)).
Proof.
  intros Hn Hs. assert (Hn' : (2 * 4 <= n)%nat) by lia. assert (Hd : (1 <= 4 <= 4)%nat) by lia.
  assert (M0 : matches n (mzeros 0 n n) (fun _ _ => 0)).
  { split. apply mzeros_dims. intros. apply mzeros_at. }
  unfold pinv; cbv zeta iota. pose proof Hs as Hs'. cbn [psafe] in Hs'.
  pb 32769%Z.
  apply wp_bind; eapply wp_mono; [eapply mdouble_ok; [eassumption|lia|lia]|]; intros ? ?; cbv beta in *.
  pu. pb 32767%Z. pu. pb 32765%Z. pu. pb 32763%Z. pu. eapply wp_mono; [pd 32761%Z|]. intros P [HD HM]; cbv beta in *. pz.
  split; auto. intros i j Hi Hj. rewrite HM by auto. clear - Hn Hi Hj. unfold msetcol, psum. cbn [rsum pco]. pfin 4%nat i.
Qed.

Lemma pinv_ok bm n d : (1 <= d <= 4)%nat -> (2 * d <= n)%nat -> (Z.of_nat n <= psafe d)%Z ->
  wp (pinv (A := R) bm n d) (fun P => matches n P (psum n d)).
Proof.
  intros Hd Hn Hs. assert (d = 1 \/ d = 2 \/ d = 3 \/ d = 4)%nat as [->|[->|[->| ->]]] by lia;
  [apply pinv1_ok|apply pinv2_ok|apply pinv3_ok|apply pinv4_ok]; auto.
Qed.
