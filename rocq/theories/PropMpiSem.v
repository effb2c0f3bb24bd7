(** C35, C36, what the model of MPI promises (MpiSem.v is part of what is
    trusted): a collective completes only if every block fits into the buffers
    at hand, and changes nothing of the receive buffer outside the blocks. *)
From Coq Require Import List Arith Lia Bool ZArith.
From Verif Require Import Base MpiSem.
Import ListNotations.
Local Open Scope nat_scope.

Section Sem.
Context {T : Type}.
(** the receive buffer of a request, with the counts and displacements of its blocks, on one of [n] ranks *)
Definition receive_blocks (n : nat) (q : req T) : option (list T * list Z * list Z) :=
  match q with
  | QAllToAllV _ _ _ rcv rc rd | QAllGatherV _ rcv rc rd | QGatherVRoot _ _ rcv rc rd => Some (rcv, rc, rd)
  | QGatherRoot _ _ rcv | QAllGather _ rcv => Some (rcv, repeat 1%Z n, map Z.of_nat (seq 0 n))
  | _ => None
  end.
(** [k] lies in no block *)
Definition outside (n : nat) (rc rd : list Z) (k : nat) : Prop :=
  forall p c d, p < n -> nth_error rc p = Some c -> nth_error rd p = Some d -> (Z.of_nat k < d \/ d + c <= Z.of_nat k)%Z.

Lemma paste_spec (l : list T) d x r : paste l d x = Some r <->
  (0 <= d)%Z /\ (d + Z.of_nat (length x) <= Z.of_nat (length l))%Z /\ r = firstn (Z.to_nat d) l ++ x ++ skipn (Z.to_nat d + length x) l.
Proof.
  unfold paste. destruct (0 <=? d)%Z eqn:E1; [apply Z.leb_le in E1|apply Z.leb_gt in E1; split; [discriminate|lia]].
  destruct (_ <=? _)%Z eqn:E2; [apply Z.leb_le in E2|apply Z.leb_gt in E2; split; [discriminate|lia]]. cbn [andb].
  split; [intros H; injection H as <-; auto|intros (_ & _ & ->); auto].
Qed.
Lemma nth_error_skipn' (l : list T) k i : nth_error (skipn k l) i = nth_error l (k + i).
Proof. revert l; induction k as [|k IH]; intros [|a l]; cbn; auto. destruct i; reflexivity. Qed.
Lemma nth_error_firstn' (l : list T) k i : i < k -> nth_error (firstn k l) i = nth_error l i.
Proof. revert l i; induction k as [|k IH]; intros [|a l] [|i] H; cbn; auto; try lia. apply IH; lia. Qed.
Lemma paste_length (l : list T) d x r : paste l d x = Some r -> length r = length l.
Proof. intros H. apply paste_spec in H as (H1 & H2 & ->). rewrite !app_length, firstn_length, skipn_length. lia. Qed.
Lemma paste_outside (l : list T) d x r k : paste l d x = Some r -> (Z.of_nat k < d \/ d + Z.of_nat (length x) <= Z.of_nat k)%Z -> nth_error r k = nth_error l k.
Proof.
  intros H K. apply paste_spec in H as (H1 & H2 & ->).
  assert (Lf : length (firstn (Z.to_nat d) l) = Z.to_nat d) by (rewrite firstn_length; lia). destruct K as [K|K].
  - rewrite nth_error_app1 by lia. apply nth_error_firstn'. lia.
  - rewrite nth_error_app2 by lia. rewrite nth_error_app2 by lia. rewrite nth_error_skipn'. f_equal. lia.
Qed.
Lemma collect_inside src rc rd : forall ps (rcv : list T) r, collect src rc rd ps rcv = Some r ->
  length r = length rcv /\
  (forall p, In p ps -> exists c d, nth_error rc p = Some c /\ nth_error rd p = Some d /\ (0 <= c)%Z /\ (0 <= d)%Z /\ (d + c <= Z.of_nat (length rcv))%Z) /\
  (forall k, (forall p c d, In p ps -> nth_error rc p = Some c -> nth_error rd p = Some d -> (Z.of_nat k < d \/ d + c <= Z.of_nat k)%Z) -> nth_error r k = nth_error rcv k).
Proof.
  induction ps as [|p ps IH]; intros rcv r H; cbn [collect] in H.
  - injection H as <-. split; auto. split; [intros p []|auto].
  - destruct (src p) as [x|]; cbn [obind] in H; [|discriminate]. destruct (nth_error rc p) as [c|] eqn:Ec; cbn [obind] in H; [|discriminate].
    destruct (nth_error rd p) as [d|] eqn:Ed; cbn [obind] in H; [|discriminate]. destruct (c =? Z.of_nat (length x))%Z eqn:E; [|discriminate]. apply Z.eqb_eq in E.
    destruct (paste rcv d x) as [rcv1|] eqn:Ep; cbn [obind] in H; [|discriminate].
    destruct (IH _ _ H) as (L & B & O). pose proof (paste_length _ _ _ _ Ep) as L1. split; [congruence|]. split.
    + intros q [<-|Hq]. { exists c, d. split; [auto|]. split; [auto|]. apply paste_spec in Ep as (P1 & P2 & _). lia. } rewrite <- L1. auto.
    + intros k Hk. rewrite O. apply (paste_outside _ _ _ _ _ Ep). rewrite <- E. apply (Hk p); auto. left; auto.
      intros q c' d' Hq. apply Hk. right; auto.
Qed.
End Sem.

(** A collective that receives blocks completes only if the block of every rank
    lies inside the receive buffer; the buffer keeps its length, and outside the
    blocks its contents. *)
Theorem C36_collectives_write_only_their_receive_blocks :
  forall T (s : @slot T) me q rcv rc rd r, posted s me = Some q -> receive_blocks (length s) q = Some (rcv, rc, rd) -> reply s me = Some r ->
  length r = length rcv /\
  (forall p, p < length s -> exists c d, nth_error rc p = Some c /\ nth_error rd p = Some d /\ (0 <= c)%Z /\ (0 <= d)%Z /\ (d + c <= Z.of_nat (length rcv))%Z) /\
  (forall k, outside (length s) rc rd k -> nth_error r k = nth_error rcv k).
Proof.
  intros T s me q rcv rc rd r Hq Hb Hr. unfold reply in Hr. rewrite Hq in Hr.
  assert (G : exists src, collect src rc rd (seq 0 (length s)) rcv = Some r).
  { destruct q; cbn [receive_blocks] in Hb; try discriminate; injection Hb as <- <- <-; try destruct (me =? _); try discriminate; eexists; exact Hr. }
  destruct G as [src G]. apply collect_inside in G as (L & B & O). split; [exact L|]. split.
  - intros p Hp. apply B, in_seq. lia.
  - intros k Hk. apply O. intros p c d Hp. apply Hk. apply in_seq in Hp. lia.
Qed.
Print Assumptions C36_collectives_write_only_their_receive_blocks.

(** What a rank sends must lie inside its send buffer, and what a scatter
    delivers fills the receive buffer exactly. *)
Theorem C36_sent_blocks_lie_inside_the_send_buffer :
  forall T (s : @slot T) me r, reply s me = Some r ->
  (forall snd sc sd rcv rc rd, posted s me = Some (QAllToAllV snd sc sd rcv rc rd) ->
     forall p snd' sc' sd' rcv' rc' rd', p < length s -> posted s p = Some (QAllToAllV snd' sc' sd' rcv' rc' rd') ->
     exists c d, nth_error sc' me = Some c /\ nth_error sd' me = Some d /\ (0 <= c)%Z /\ (0 <= d)%Z /\ (d + c <= Z.of_nat (length snd'))%Z) /\
  (forall root rcv, posted s me = Some (QScatterV root rcv) -> length r = length rcv /\
     forall snd sc sd rcv', posted s root = Some (QScatterVRoot root snd sc sd rcv') ->
     exists c d, nth_error sc me = Some c /\ nth_error sd me = Some d /\ (0 <= c)%Z /\ (0 <= d)%Z /\ (d + c <= Z.of_nat (length snd))%Z).
Proof.
  intros T s me r Hr. unfold reply in Hr.
  assert (BL : forall (l : list T) d c x, block l d c = Some x -> (0 <= c)%Z /\ (0 <= d)%Z /\ (d + c <= Z.of_nat (length l))%Z).
  { intros l d c x. unfold block. destruct (_ && _) eqn:E; [|discriminate]. intros _.
    apply andb_prop in E as [E E3]. apply andb_prop in E as [E1 E2]. apply Z.leb_le in E1. apply Z.leb_le in E2. apply Z.leb_le in E3. auto. }
  split.
  - intros snd sc sd rcv rc rd Hq p snd' sc' sd' rcv' rc' rd' Hp Hq'. rewrite Hq in Hr.
    assert (G : forall src ps (l : list T) r, collect src rc rd ps l = Some r -> In p ps -> exists x, src p = Some x).
    { intros src. induction ps as [|p0 ps IH]; intros l r0 H I; [destruct I|]. cbn [collect] in H. destruct (src p0) as [x|] eqn:Ex; cbn [obind] in H; [|discriminate].
      destruct I as [<-|I]; [eauto|]. destruct (nth_error rc p0); cbn [obind] in H; [|discriminate]. destruct (nth_error rd p0); cbn [obind] in H; [|discriminate].
      destruct (_ =? _)%Z; [|discriminate]. destruct (paste _ _ _); cbn [obind] in H; [|discriminate]. eauto. }
    destruct (G _ _ _ _ Hr) as [x Hx]; [apply in_seq; lia|]. cbv beta in Hx. rewrite Hq' in Hx.
    destruct (nth_error sc' me) as [c|]; cbn [obind] in Hx; [|discriminate]. destruct (nth_error sd' me) as [d|]; cbn [obind] in Hx; [|discriminate].
    exists c, d. split; [auto|]. split; [auto|]. eapply BL; eauto.
  - intros root rcv Hq. rewrite Hq in Hr. destruct (me =? root); [discriminate|]. destruct (posted s root) as [[]|] eqn:Eq; try discriminate.
    destruct (nth_error sc me) as [c|] eqn:Ec; cbn [obind] in Hr; [|discriminate]. destruct (nth_error sd me) as [d|] eqn:Ed; cbn [obind] in Hr; [|discriminate].
    destruct (block snd d c) as [x|] eqn:Eb; cbn [obind] in Hr; [|discriminate]. destruct (_ && _) eqn:El; [|discriminate]. injection Hr as <-.
    apply andb_prop in El as [_ El]. apply Nat.eqb_eq in El. split; [exact El|]. intros snd' sc' sd' rcv'' H. injection H as -> <- <- <- <-. exists c, d. split; [auto|]. split; [auto|]. eapply BL; eauto.
Qed.
Print Assumptions C36_sent_blocks_lie_inside_the_send_buffer.

(** The hypotheses are met: two ranks exchange blocks of 1 and 2 elements; rank 1
    keeps the last element of its buffer, and a block that does not fit stops the call. *)
Example C36_collectives_hyps_met :
  let q0 n := QAllToAllV [10; 11; 12] [1; 2]%Z [0; 1]%Z (repeat 0 3) [1; 1]%Z [0; 1]%Z in
  let q1 n := QAllToAllV [20; 21] [1; 1]%Z [0; 1]%Z (repeat 0 n) [2; 1]%Z [0; 2]%Z in
  reply [Some (q0 3); Some (q1 4)] 1 = Some [11; 12; 21; 0] /\ reply [Some (q0 3); Some (q1 2)] 1 = None.
Proof. split; reflexivity. Qed.
