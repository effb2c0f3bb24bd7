(** The MPI runtime the distributed code runs on: processes that compute
    locally and meet in collective operations on the world communicator.
    Not a model of a file of /repo: this is the semantics (from the MPI
    standard and the rsmpi documentation) of the collective calls that
    space_mpi/decomp2d makes; it is part of the trusted base.

    A process is a program that returns, panics, or posts a collective request
    and continues with the new content of its receive buffer. Collectives are
    matched in program order. A process waits only for the contributions it
    needs: e.g. a non-root process in a gather may run ahead. A request whose
    counts do not match its partners' (an erroneous MPI program) is never
    answered. *)
From Coq Require Import List Arith Lia Bool ZArith.
From Verif Require Import Base.
Import ListNotations.

(** the collectives of rsmpi the code calls, with their buffers and counts (external) *)
Inductive req (T : Type) :=
| QAllToAllV (snd : list T) (sc sd : list Z) (rcv : list T) (rc rd : list Z)
| QAllGatherV (snd rcv : list T) (rc rd : list Z)
| QGatherV (root : nat) (snd : list T)
| QGatherVRoot (root : nat) (snd rcv : list T) (rc rd : list Z)
| QScatterV (root : nat) (rcv : list T)
| QScatterVRoot (root : nat) (snd : list T) (sc sd : list Z) (rcv : list T)
| QBcast (root : nat) (x : T)
| QGather (root : nat) (x : T)
| QGatherRoot (root : nat) (x : T) (rcv : list T)
| QAllGather (x : T) (rcv : list T).
Arguments QAllToAllV {T}. Arguments QAllGatherV {T}. Arguments QGatherV {T}. Arguments QGatherVRoot {T}.
Arguments QScatterV {T}. Arguments QScatterVRoot {T}. Arguments QBcast {T}. Arguments QGather {T}.
Arguments QGatherRoot {T}. Arguments QAllGather {T}.

Section Reply.
Context {T : Type}.

(** sequencing of options (vocabulary) *)
Definition obind {A B} (m : option A) (k : A -> option B) : option B := match m with Some a => k a | None => None end.

(** [c] elements of a buffer starting at [d]; nothing outside the buffer. *)
Definition block (l : list T) (d c : Z) : option (list T) :=
  if (0 <=? d)%Z && (0 <=? c)%Z && (d + c <=? Z.of_nat (length l))%Z
  then Some (firstn (Z.to_nat c) (skipn (Z.to_nat d) l)) else None.
(** the list with a block written at a position (vocabulary of [reply]) *)
Definition paste (l : list T) (d : Z) (x : list T) : option (list T) :=
  if (0 <=? d)%Z && (d + Z.of_nat (length x) <=? Z.of_nat (length l))%Z
  then Some (firstn (Z.to_nat d) l ++ x ++ skipn (Z.to_nat d + length x) l) else None.

(** Contributions posted so far to one collective, one entry per rank. *)
Definition slot := list (option (req T)).
(** the request each rank has posted *)
Definition posted (s : slot) (p : nat) : option (req T) := match nth_error s p with Some o => o | None => None end.

(** Receive one block from each of the ranks [ps]: [src p] is what rank [p]
    sends to me; its length must be the count I expect from [p]. *)
Fixpoint collect (src : nat -> option (list T)) (rc rd : list Z) (ps : list nat) (rcv : list T) : option (list T) :=
  match ps with
  | [] => Some rcv
  | p :: ps =>
      obind (src p) (fun x => obind (nth_error rc p) (fun c => obind (nth_error rd p) (fun d =>
        if (c =? Z.of_nat (length x))%Z then obind (paste rcv d x) (fun rcv => collect src rc rd ps rcv) else None)))
  end.

(** What rank [me] receives; [None] as long as it is not determined. *)
Definition reply (s : slot) (me : nat) : option (list T) :=
  let everyone := seq 0 (length s) in
  match posted s me with
  | None => None
  | Some (QAllToAllV _ _ _ rcv rc rd) =>
      collect (fun p => match posted s p with
        | Some (QAllToAllV snd sc sd _ _ _) =>
            obind (nth_error sc me) (fun c => obind (nth_error sd me) (fun d => block snd d c))
        | _ => None end) rc rd everyone rcv
  | Some (QAllGatherV _ rcv rc rd) =>
      collect (fun p => match posted s p with Some (QAllGatherV snd _ _ _) => Some snd | _ => None end) rc rd everyone rcv
  | Some (QGatherV root _) => if me =? root then None else Some []
  | Some (QGatherVRoot root _ rcv rc rd) =>
      if me =? root then
        collect (fun p => match posted s p with
          | Some (QGatherV root' snd) => if (root' =? root) && negb (p =? root) then Some snd else None
          | Some (QGatherVRoot root' snd _ _ _) => if (root' =? root) && (p =? root) then Some snd else None
          | _ => None end) rc rd everyone rcv
      else None
  | Some (QScatterV root rcv) =>
      if me =? root then None else
      match posted s root with
      | Some (QScatterVRoot root' snd sc sd _) =>
          obind (nth_error sc me) (fun c => obind (nth_error sd me) (fun d => obind (block snd d c) (fun x =>
            if (root' =? root) && (length x =? length rcv) then Some x else None)))
      | _ => None end
  | Some (QScatterVRoot root snd sc sd rcv) =>
      if me =? root then
        obind (nth_error sc me) (fun c => obind (nth_error sd me) (fun d => obind (block snd d c) (fun x =>
          if length x =? length rcv then Some x else None)))
      else None
  | Some (QBcast root _) =>
      match posted s root with Some (QBcast root' x) => if root' =? root then Some [x] else None | _ => None end
  | Some (QGather root _) => if me =? root then None else Some []
  | Some (QGatherRoot root _ rcv) =>
      if me =? root then
        collect (fun p => match posted s p with
          | Some (QGather root' x) => if (root' =? root) && negb (p =? root) then Some [x] else None
          | Some (QGatherRoot root' x _) => if (root' =? root) && (p =? root) then Some [x] else None
          | _ => None end) (repeat 1%Z (length s)) (map Z.of_nat everyone) everyone rcv
      else None
  | Some (QAllGather _ rcv) =>
      collect (fun p => match posted s p with Some (QAllGather x _) => Some [x] | _ => None end)
        (repeat 1%Z (length s)) (map Z.of_nat everyone) everyone rcv
  end.

(** More contributions do not change what a rank receives. *)
Definition extends (s s' : slot) : Prop := length s = length s' /\ forall p q, posted s p = Some q -> posted s' p = Some q.

Lemma collect_mono src src' rc rd : (forall p x, src p = Some x -> src' p = Some x) ->
  forall ps rcv r, collect src rc rd ps rcv = Some r -> collect src' rc rd ps rcv = Some r.
Proof.
  intros H. induction ps as [|p ps IH]; cbn; intros rcv r E; auto.
  destruct (src p) as [x|] eqn:Ex; cbn in *; [|discriminate]. rewrite (H _ _ Ex). cbn.
  destruct (nth_error rc p); cbn in *; [|discriminate]. destruct (nth_error rd p); cbn in *; [|discriminate].
  destruct (_ =? _)%Z; [|discriminate]. destruct (paste _ _ _); cbn in *; [|discriminate]. auto.
Qed.

Lemma reply_mono s s' me r : extends s s' -> reply s me = Some r -> reply s' me = Some r.
Proof.
  intros [L H] E. unfold reply in *. rewrite <- L.
  destruct (posted s me) as [q|] eqn:Eq; [|discriminate]. rewrite (H _ _ Eq).
  destruct q; auto.
  - revert E. apply collect_mono. intros p x. destruct (posted s p) as [q|] eqn:Ep; [|discriminate]. rewrite (H _ _ Ep). auto.
  - revert E. apply collect_mono. intros p x. destruct (posted s p) as [q|] eqn:Ep; [|discriminate]. rewrite (H _ _ Ep). auto.
  - destruct (me =? root); auto. revert E. apply collect_mono. intros p x. destruct (posted s p) as [q|] eqn:Ep; [|discriminate]. rewrite (H _ _ Ep). auto.
  - destruct (me =? root); auto. destruct (posted s root) as [q|] eqn:Ep; [|discriminate]. rewrite (H _ _ Ep). auto.
  - destruct (posted s root) as [q|] eqn:Ep; [|discriminate]. rewrite (H _ _ Ep). auto.
  - destruct (me =? root); auto. revert E. apply collect_mono. intros p y. destruct (posted s p) as [q|] eqn:Ep; [|discriminate]. rewrite (H _ _ Ep). auto.
  - revert E. apply collect_mono. intros p y. destruct (posted s p) as [q|] eqn:Ep; [|discriminate]. rewrite (H _ _ Ep). auto.
Qed.
End Reply.

(** ** Processes *)
Inductive mprog (T X : Type) :=
| MRet (x : X)
| MPanic
| MUB
| MCall (q : req T) (k : list T -> mprog T X).
Arguments MRet {T X}. Arguments MPanic {T X}. Arguments MUB {T X}. Arguments MCall {T X}.

(** sequencing of programs with calls *)
Fixpoint mbind {T X Y} (m : mprog T X) (k : X -> mprog T Y) : mprog T Y :=
  match m with
  | MRet x => k x
  | MPanic => MPanic
  | MUB => MUB
  | MCall q c => MCall q (fun r => mbind (c r) k)
  end.
(** a local computation *)
Definition mlift {T X} (m : res X) : mprog T X := match m with Ok x => MRet x | Panic => MPanic | UB => MUB end.
Notation "'let!' x ':=' m 'in' k" := (mbind m (fun x => k))
  (at level 200, x pattern, m at level 100, k at level 200, right associativity).
Notation "'let^' x ':=' m 'in' k" := (mbind (mlift m) (fun x => k))
  (at level 200, x pattern, m at level 100, k at level 200, right associativity).
Notation "m '!;' k" := (mbind m (fun _ => k)) (at level 100, right associativity).

Section World.
Context {T X : Type}.
(** A rank: the requests it has posted so far, whether it waits for the reply
    to the last of them, and its remaining program. *)
Record rank := mk_rank { log : list (req T); wait : bool; prg : mprog T X }.
(** what every rank has posted to its collective number c *)
Definition slot_of (ws : list rank) (c : nat) : slot := map (fun r => nth_error (log r) c) ws.

(** One step of one process. *)
Inductive step : list rank -> list rank -> Prop :=
| step_post ws i l q k : nth_error ws i = Some (mk_rank l false (MCall q k)) ->
    step ws (upd ws i (mk_rank (l ++ [q]) true (MCall q k)))
| step_reply ws i l q k r : nth_error ws i = Some (mk_rank l true (MCall q k)) ->
    reply (slot_of ws (length l - 1)) i = Some r -> step ws (upd ws i (mk_rank l false (k r))).
(** finitely many steps of a schedule *)
Inductive steps : nat -> list rank -> list rank -> Prop :=
| steps_0 ws : steps 0 ws ws
| steps_S n ws ws' ws'' : steps n ws ws' -> step ws' ws'' -> steps (S n) ws ws''.

(** all ranks before their first step *)
Definition start (ps : list (mprog T X)) : list rank := map (mk_rank [] false) ps.
(** all ranks have returned *)
Definition returned (ws : list rank) (xs : list X) : Prop := map prg ws = map MRet xs.

(** Whatever the schedule, the processes [ps] terminate and rank i returns
    xs[i]: every execution is finite and can only end there. *)
Definition every_schedule (ps : list (mprog T X)) (xs : list X) : Prop :=
  exists bound, forall n ws, steps n (start ps) ws ->
    n <= bound /\ ((forall ws', ~ step ws ws') -> returned ws xs).

(** A reference execution: all ranks take part in each collective together. *)
Inductive brun (n : nat) : (nat -> mprog T X) -> (nat -> X) -> Prop :=
| brun_ret ps xs : (forall i, i < n -> ps i = MRet (xs i)) -> brun n ps xs
| brun_call ps qs ks rs xs :
    (forall i, i < n -> ps i = MCall (qs i) (ks i)) ->
    (forall i, i < n -> reply (map (fun j => Some (qs j)) (seq 0 n)) i = Some (rs i)) ->
    brun n (fun i => ks i (rs i)) xs -> brun n ps xs.

(** a reference execution of R collectives, written as functions of the round and the rank *)
Definition trace (n R : nat) (P : nat -> nat -> mprog T X) Q K rs (xs : nat -> X) : Prop :=
  (forall c i, c < R -> i < n -> P c i = MCall (Q c i) (K c i) /\
     reply (map (fun j => Some (Q c j)) (seq 0 n)) i = Some (rs c i) /\ P (S c) i = K c i (rs c i)) /\
  (forall i, i < n -> P R i = MRet (xs i)).

Lemma brun_trace n ps xs : brun n ps xs -> exists R P Q K rs, trace n R P Q K rs xs /\ forall i, P 0 i = ps i.
Proof.
  induction 1 as [ps xs H|ps qs ks rs xs H1 H2 H3 (R & P & Q & K & r & [Ht Hr] & H0)].
  - exists 0, (fun _ => ps), (fun _ _ => QGatherV 0 []), (fun _ _ _ => MPanic), (fun _ _ => []).
    split; auto. split; auto. intros; lia.
  - exists (S R), (fun c => match c with 0 => ps | S c => P c end), (fun c => match c with 0 => qs | S c => Q c end),
      (fun c => match c with 0 => ks | S c => K c end), (fun c => match c with 0 => rs | S c => r c end).
    split; auto. split.
    + intros [|c] i Hc Hi; [|apply Ht; auto; lia]. split; auto.
    + apply Hr.
Qed.

Section Kahn.
Variables (n R : nat) (P : nat -> nat -> mprog T X) (Q : nat -> nat -> req T) (K : nat -> nat -> list T -> mprog T X)
  (rs : nat -> nat -> list T) (xs : nat -> X).
Hypothesis Tr : trace n R P Q K rs xs.

(** the rank has made c collectives of the reference execution and may be waiting in the next *)
Definition at_round (i : nat) (r : rank) (c : nat) : Prop :=
  c <= R /\ prg r = P c i /\
  if wait r then c < R /\ log r = map (fun c => Q c i) (seq 0 (S c)) else log r = map (fun c => Q c i) (seq 0 c).
(** all ranks are somewhere along the reference execution *)
Definition Inv (ws : list rank) (cs : list nat) : Prop :=
  length ws = n /\ length cs = n /\
  forall i r c, nth_error ws i = Some r -> nth_error cs i = Some c -> at_round i r c.
(** the number of steps made so far *)
Fixpoint total (ws : list rank) (cs : list nat) : nat :=
  match ws, cs with r :: ws, c :: cs => 2 * c + Nat.b2n (wait r) + total ws cs | _, _ => 0 end.

Lemma total_upd : forall ws cs i r r' c c', nth_error ws i = Some r -> nth_error cs i = Some c ->
  2 * c' + Nat.b2n (wait r') = S (2 * c + Nat.b2n (wait r)) ->
  total (upd ws i r') (upd cs i c') = S (total ws cs).
Proof.
  induction ws as [|w ws IH]; intros [|d cs] [|i] r r' c c' H1 H2 E; cbn in *; try discriminate.
  - injection H1 as ->. injection H2 as ->. lia.
  - rewrite (IH cs i r r' c c'); auto; lia.
Qed.
Lemma nth_upd {Y} : forall (l : list Y) i j x y, nth_error (upd l i x) j = Some y ->
  (i = j /\ y = x /\ j < length l) \/ (i <> j /\ nth_error l j = Some y).
Proof.
  induction l as [|a l IH]; intros [|i] [|j] x y H; cbn in *; try discriminate.
  - injection H as ->. left. repeat split; lia.
  - right. split; [lia|auto].
  - right. split; [lia|auto].
  - destruct (IH _ _ _ _ H) as [(E & E' & L)|(E & E')]; [left|right]; repeat split; auto; lia.
Qed.

Lemma slot_extends ws cs c : Inv ws cs -> extends (slot_of ws c) (map (fun j => Some (Q c j)) (seq 0 n)).
Proof.
  intros (L & Lc & H). split. unfold slot_of. rewrite !map_length, seq_length. auto.
  intros p q. unfold posted, slot_of. rewrite nth_error_map. destruct (nth_error ws p) as [r|] eqn:Er; cbn; [|discriminate].
  intros Eq. assert (Hp : p < n) by (rewrite <- L; apply nth_error_Some; congruence).
  destruct (nth_error cs p) as [cp|] eqn:Ec; [|apply nth_error_None in Ec; lia].
  destruct (H _ _ _ Er Ec) as (_ & _ & Hl).
  assert (q = Q c p).
  { assert (exists m, log r = map (fun c => Q c p) (seq 0 m)) as [m Hm] by (destruct (wait r); [destruct Hl|]; eauto).
    rewrite Hm, nth_error_map in Eq. destruct (nth_error (seq 0 m) c) as [c'|] eqn:E'; cbn in Eq; [|discriminate].
    injection Eq as <-. assert (c < m) by (rewrite <- (seq_length m 0); apply nth_error_Some; congruence).
    f_equal. apply (nth_error_nth _ _ 0) in E'. rewrite seq_nth in E'; lia. }
  subst q. rewrite nth_error_map. rewrite (nth_error_nth' _ 0) by (rewrite seq_length; auto). cbn. rewrite seq_nth by auto. auto.
Qed.

Lemma Inv_step ws cs ws' : Inv ws cs -> step ws ws' -> exists cs', Inv ws' cs' /\ total ws' cs' = S (total ws cs).
Proof.
  intros I St. pose proof I as (L & Lc & H). destruct Tr as [Tr1 Tr2].
  inversion St as [? i l q k Ei|? i l q k r Ei Er]; subst.
  - assert (Hi : i < n) by (rewrite <- L; apply nth_error_Some; congruence).
    destruct (nth_error cs i) as [c|] eqn:Ec; [|apply nth_error_None in Ec; lia].
    destruct (H _ _ _ Ei Ec) as (Hc & Hp & Hl). cbn [prg log wait] in Hp, Hl.
    assert (c <> R). { intros ->. rewrite (Tr2 i Hi) in Hp. discriminate. }
    assert (HcR : c < R) by lia. destruct (Tr1 c i HcR Hi) as (E1 & _ & _). rewrite E1 in Hp. injection Hp as Hq Hk.
    exists (upd cs i c). split.
    + split; [rewrite upd_length; auto|]. split; [rewrite upd_length; auto|].
      intros j r d Hr Hd. apply nth_upd in Hr. apply nth_upd in Hd.
      destruct Hr as [(-> & -> & _)|(N1 & Hr)].
      * destruct Hd as [(_ & -> & _)|(N & _)]; [|congruence]. split; auto. cbn [prg wait log]. split. congruence. split; auto.
        rewrite seq_S, map_app. cbn [map app]. rewrite Hl, Hq. auto.
      * destruct Hd as [(N & _)|(_ & Hd)]; [congruence|]. apply H; auto.
    + rewrite (total_upd _ _ _ _ _ _ c Ei Ec); auto. cbn. lia.
  - assert (Hi : i < n) by (rewrite <- L; apply nth_error_Some; congruence).
    destruct (nth_error cs i) as [c|] eqn:Ec; [|apply nth_error_None in Ec; lia].
    destruct (H _ _ _ Ei Ec) as (Hc & Hp & HcR & Hl). cbn [prg log wait] in Hp, Hl.
    destruct (Tr1 c i HcR Hi) as (E1 & E2 & E3). rewrite E1 in Hp. injection Hp as Hq Hk.
    assert (length l - 1 = c). { rewrite Hl, map_length, seq_length. lia. }
    pose proof (reply_mono _ _ i r (slot_extends ws cs (length l - 1) I) Er) as Er'. rewrite H0, E2 in Er'. injection Er' as <-.
    exists (upd cs i (S c)). split.
    + split; [rewrite upd_length; auto|]. split; [rewrite upd_length; auto|].
      intros j r' d Hr Hd. apply nth_upd in Hr. apply nth_upd in Hd.
      destruct Hr as [(-> & -> & _)|(N1 & Hr)].
      * destruct Hd as [(_ & -> & _)|(N & _)]; [|congruence]. split; auto. cbn. split. congruence. auto.
      * destruct Hd as [(N & _)|(_ & Hd)]; [congruence|]. apply H; auto.
    + rewrite (total_upd _ _ _ _ _ _ (S c) Ei Ec); auto. cbn. lia.
Qed.

Lemma total_bound : forall ws cs, (forall c, In c cs -> c <= R) -> total ws cs <= length ws * (2 * R + 1).
Proof.
  induction ws as [|w ws IH]; intros [|c cs] H; cbn [total length]; try lia.
  specialize (IH cs (fun c h => H c (or_intror h))). pose proof (H c (or_introl eq_refl)).
  assert (Nat.b2n (wait w) <= 1) by (destruct (wait w); cbn; lia). nia.
Qed.

Lemma min_list : forall cs : list nat, cs <> [] -> exists i c, nth_error cs i = Some c /\ forall j d, nth_error cs j = Some d -> c <= d.
Proof.
  induction cs as [|a [|b cs] IH]; intros H; [congruence| |].
  - exists 0, a. split; auto. intros [|[|j]] d E; cbn in E; try discriminate. injection E; lia.
  - destruct IH as (i & c & E & M); [discriminate|]. destruct (le_lt_dec a c).
    + exists 0, a. split; auto. intros [|j] d E'; cbn in E'. injection E'; lia. apply M in E'. lia.
    + exists (S i), c. split; auto. intros [|j] d E'. cbn in E'. injection E'; lia. exact (M j d E').
Qed.

Lemma Inv_stuck ws cs : Inv ws cs -> (forall ws', ~ step ws ws') -> returned ws (map xs (seq 0 n)).
Proof.
  intros I N. pose proof I as (L & Lc & H). destruct Tr as [Tr1 Tr2].
  assert (AllR : forall i c, nth_error cs i = Some c -> c = R).
  { destruct cs as [|c0 cs0] eqn:Ecs. intros [|i] c E; discriminate.
    destruct (min_list cs) as (i & c & Ec & M); [rewrite Ecs; discriminate|]. rewrite <- Ecs in *.
    assert (Hi : i < n) by (rewrite <- Lc; apply nth_error_Some; congruence).
    destruct (nth_error ws i) as [r|] eqn:Er; [|apply nth_error_None in Er; lia].
    destruct (H _ _ _ Er Ec) as (Hc & _). destruct (Nat.eq_dec c R) as [->|NR].
    { intros j d Ed. pose proof (M j d Ed). assert (Hj : j < n) by (rewrite <- Lc; apply nth_error_Some; congruence).
      destruct (nth_error ws j) as [r'|] eqn:Er'; [|apply nth_error_None in Er'; lia].
      destruct (H _ _ _ Er' Ed) as (Hd & _). lia. }
    exfalso. assert (HcR : c < R) by lia.
    (* every rank has posted to round c *)
    assert (Post : forall j r', nth_error ws j = Some r' -> nth_error (log r') c = Some (Q c j)).
    { intros j r' Er'. assert (Hj : j < n) by (rewrite <- L; apply nth_error_Some; congruence).
      destruct (nth_error cs j) as [d|] eqn:Ed; [|apply nth_error_None in Ed; lia].
      pose proof (M j d Ed) as Hd. destruct (H _ _ _ Er' Ed) as (HdR & Hp & Hl).
      assert (exists m, c < m /\ log r' = map (fun c => Q c j) (seq 0 m)) as (m & Hm & ->).
      { destruct r' as [lg w pr]; cbn in *. destruct w.
        - destruct Hl as [Hl1 Hl2]. exists (S d). split; [lia|auto].
        - destruct (Nat.eq_dec d c) as [->|].
          + exfalso. destruct (Tr1 c j HcR Hj) as (E1 & _). subst pr. rewrite E1 in Er'. exact (N _ (step_post _ _ _ _ _ Er')).
          + exists d. split; [lia|auto]. }
      rewrite nth_error_map, (nth_error_nth' _ 0) by (rewrite seq_length; auto). cbn. rewrite seq_nth by auto. auto. }
    assert (Full : slot_of ws c = map (fun j => Some (Q c j)) (seq 0 n)).
    { apply (nth_ext _ _ None None). unfold slot_of. rewrite !map_length, seq_length; auto.
      intros j Hj. unfold slot_of in Hj. rewrite map_length in Hj.
      destruct (nth_error ws j) as [r'|] eqn:Er'; [|apply nth_error_None in Er'; lia].
      assert (E1 : nth_error (slot_of ws c) j = Some (Some (Q c j))).
      { unfold slot_of. rewrite nth_error_map, Er'. cbn. rewrite (Post _ _ Er'). auto. }
      apply (nth_error_nth _ _ None) in E1. rewrite E1.
      assert (E2 : nth_error (map (fun j => Some (Q c j)) (seq 0 n)) j = Some (Some (Q c j))).
      { rewrite nth_error_map, (nth_error_nth' _ 0) by (rewrite seq_length; lia). cbn. rewrite seq_nth by lia. auto. }
      apply (nth_error_nth _ _ None) in E2. rewrite E2. auto. }
    pose proof (Post _ _ Er) as Pi. destruct (H _ _ _ Er Ec) as (_ & Hp & Hl). destruct r as [lg w pr]; cbn [prg log wait] in *.
    destruct (Tr1 c i HcR Hi) as (E1 & E2 & _). subst pr. rewrite E1 in Er. destruct w.
    - destruct Hl as [_ Hl]. refine (N _ (step_reply _ _ _ _ _ (rs c i) Er _)).
      replace (length lg - 1) with c. rewrite Full. auto.
      rewrite Hl, map_length, seq_length. lia.
    - rewrite Hl in Pi. assert (c < length (map (fun c => Q c i) (seq 0 c))) by (apply nth_error_Some; congruence).
      rewrite map_length, seq_length in *. lia. }
  unfold returned. rewrite map_map. apply (nth_ext _ _ MPanic MPanic). rewrite !map_length, seq_length; auto.
  intros i Hi. rewrite map_length in Hi.
  destruct (nth_error ws i) as [r|] eqn:Er; [|apply nth_error_None in Er; lia].
  destruct (nth_error cs i) as [c|] eqn:Ec; [|apply nth_error_None in Ec; lia].
  destruct (H _ _ _ Er Ec) as (_ & Hp & _). rewrite (AllR _ _ Ec) in Hp. rewrite Tr2 in Hp by lia.
  assert (E1 : nth_error (map prg ws) i = Some (MRet (xs i))) by (rewrite nth_error_map, Er; cbn; congruence).
  apply (nth_error_nth _ _ MPanic) in E1. rewrite E1.
  assert (E2 : nth_error (map (fun x => MRet (xs x)) (seq 0 n)) i = Some (MRet (T := T) (xs i))).
  { rewrite nth_error_map, (nth_error_nth' _ 0) by (rewrite seq_length; lia). cbn. rewrite seq_nth by lia. auto. }
  apply (nth_error_nth _ _ MPanic) in E2. auto.
Qed.
End Kahn.

Theorem brun_every_schedule n ps xs : brun n ps xs -> every_schedule (map ps (seq 0 n)) (map xs (seq 0 n)).
Proof.
  intros B. destruct (brun_trace _ _ _ B) as (R & P & Q & K & rs & Tr & P0).
  exists (n * (2 * R + 1)).
  assert (K0 : forall m ws, steps m (start (map ps (seq 0 n))) ws -> exists cs, Inv n R P Q ws cs /\ total ws cs = m).
  { intros m ws S. remember (start (map ps (seq 0 n))) as w0 eqn:E0. induction S as [|m ws ws' ws'' S IH St].
    - subst ws. exists (repeat 0 n). split; [split; [|split]|].
      + unfold start. rewrite !map_length, seq_length. auto.
      + apply repeat_length.
      + intros i r c Er Ec. unfold start in Er. rewrite map_map, nth_error_map in Er.
        destruct (nth_error (seq 0 n) i) as [i'|] eqn:Ei; [|discriminate]. cbn in Er. injection Er as <-.
        apply nth_error_In, repeat_spec in Ec as Hc. subst c. cbn. split; [lia|]. cbn. split; auto.
        assert (Hi : i < n) by (rewrite <- (seq_length n 0); apply nth_error_Some; congruence).
        apply (nth_error_nth _ _ 0) in Ei. rewrite seq_nth in Ei by auto. cbn in Ei. subst. rewrite P0. auto.
      + unfold start. rewrite map_map. clear. generalize (seq 0 n) as l.
        induction n as [|k IH]; intros [|a l]; cbn; auto.
    - destruct (IH E0) as (cs & I & Tt). destruct (Inv_step _ _ _ _ _ _ _ Tr _ _ _ I St) as (cs' & I' & T'). exists cs'. split; auto. lia. }
  intros m ws S. destruct (K0 m ws S) as (cs & I & Tt). split.
  - rewrite <- Tt. destruct I as (L & Lc & H). rewrite <- L. apply total_bound.
    intros c Hc. apply In_nth_error in Hc. destruct Hc as [i Ei].
    destruct (nth_error ws i) as [r|] eqn:Er. destruct (H _ _ _ Er Ei) as (Hc & _). auto.
    apply nth_error_None in Er. assert (i < length cs) by (apply nth_error_Some; congruence). lia.
  - intros N. eapply Inv_stuck; eauto.
Qed.
End World.
Arguments rank : clear implicits.

(** The result of a world of processes is unique, and there is one. *)
Lemma every_schedule_unique {T X} (ps : list (mprog T X)) xs xs' : every_schedule ps xs -> every_schedule ps xs' -> xs = xs'.
Proof.
  intros (N & H) (N' & H').
  assert (E : forall m ws, steps m (start ps) ws -> N - m <= N -> exists m' ws', steps m' (start ps) ws' /\ forall w, ~ step ws' w).
  { intros m. remember (N - m) as d eqn:Hd. revert m Hd.
    induction d as [|d IH]; intros m Hd ws S _.
    - exists m, ws. split; auto. intros w St. pose proof (proj1 (H _ _ (steps_S _ _ _ _ S St))). pose proof (proj1 (H _ _ S)). lia.
    - assert (Dec : (exists w, step ws w) \/ (forall w, ~ step ws w)).
      { assert (D : forall i, i <= length ws -> (exists w, step ws w) \/
          (forall j r, j < i -> nth_error ws j = Some r -> match prg r with
             | MCall q k => wait r = true /\ reply (slot_of ws (length (log r) - 1)) j = None | _ => True end)).
        { induction i as [|i IHi]; intros Hi. right; intros; lia.
          destruct IHi as [?|IHi]; [lia|auto|].
          destruct (nth_error ws i) as [r|] eqn:Er; [|apply nth_error_None in Er; lia].
          destruct r as [lg w pr]. destruct pr as [x| | |q k].
          - right. intros j r Hj Hr. destruct (Nat.eq_dec j i) as [->|]. rewrite Er in Hr. injection Hr as <-. cbn. auto. apply IHi; auto; lia.
          - right. intros j r Hj Hr. destruct (Nat.eq_dec j i) as [->|]. rewrite Er in Hr. injection Hr as <-. cbn. auto. apply IHi; auto; lia.
          - right. intros j r Hj Hr. destruct (Nat.eq_dec j i) as [->|]. rewrite Er in Hr. injection Hr as <-. cbn. auto. apply IHi; auto; lia.
          - destruct w.
            + destruct (reply (slot_of ws (length lg - 1)) i) as [r|] eqn:Rp.
              * left. eexists. eapply step_reply; eauto.
              * right. intros j r Hj Hr. destruct (Nat.eq_dec j i) as [->|]. rewrite Er in Hr. injection Hr as <-. cbn. auto. apply IHi; auto; lia.
            + left. eexists. eapply step_post; eauto. }
        destruct (D (length ws) (Nat.le_refl _)) as [?|Dn]; [auto|]. right. intros w St. inversion St; subst.
        - assert (i < length ws) by (apply nth_error_Some; congruence). specialize (Dn _ _ H1 H0). cbn in Dn. destruct Dn; discriminate.
        - assert (i < length ws) by (apply nth_error_Some; congruence). specialize (Dn _ _ H2 H0). cbn in Dn. destruct Dn; congruence. }
      destruct Dec as [[w St]|Ns]; [|eauto].
      apply (IH (Datatypes.S m)) with (ws := w); [lia| |lia]. econstructor; eauto. }
  destruct (E 0 (start ps) (steps_0 _) ltac:(lia)) as (m & ws & S & Ns).
  pose proof (proj2 (H _ _ S) Ns) as R1. pose proof (proj2 (H' _ _ S) Ns) as R2. unfold returned in *. rewrite R1 in R2.
  clear -R2. revert xs' R2. induction xs as [|x xs IH]; intros [|y ys] E; cbn in E; try discriminate; auto. injection E as -> E. f_equal; auto.
Qed.
