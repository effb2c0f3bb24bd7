(** Collectives on buffers of several element types in one program: part of the
    semantics of the MPI runtime (MpiSem.v), not of /repo. A message element is
    tagged with its type; a program that communicates elements of type T runs
    unchanged on tagged elements, and a reply with elements of another type is an
    erroneous program (undefined behaviour). *)
From Coq Require Import List Arith Lia Bool ZArith.
From Verif Require Import Base MpiSem MpiRuns.
Import ListNotations.

Section Mix.
Context {T M : Type} (inj : T -> M) (prj : M -> option T).
Definition req_map (q : req T) : req M :=
  match q with
  | QAllToAllV s sc sd r rc rd => QAllToAllV (map inj s) sc sd (map inj r) rc rd
  | QAllGatherV s r rc rd => QAllGatherV (map inj s) (map inj r) rc rd
  | QGatherV root s => QGatherV root (map inj s)
  | QGatherVRoot root s r rc rd => QGatherVRoot root (map inj s) (map inj r) rc rd
  | QScatterV root r => QScatterV root (map inj r)
  | QScatterVRoot root s sc sd r => QScatterVRoot root (map inj s) sc sd (map inj r)
  | QBcast root x => QBcast root (inj x)
  | QGather root x => QGather root (inj x)
  | QGatherRoot root x r => QGatherRoot root (inj x) (map inj r)
  | QAllGather x r => QAllGather (inj x) (map inj r)
  end.
Fixpoint untag (l : list M) : option (list T) :=
  match l with [] => Some [] | x :: l => obind (prj x) (fun x => obind (untag l) (fun l => Some (x :: l))) end.
Fixpoint via {X} (m : mprog T X) : mprog M X :=
  match m with
  | MRet x => MRet x
  | MPanic => MPanic
  | MUB => MUB
  | MCall q k => MCall (req_map q) (fun r => match untag r with Some r => via (k r) | None => MUB end)
  end.

Hypothesis prj_inj : forall x, prj (inj x) = Some x.
Lemma untag_map l : untag (map inj l) = Some l.
Proof. induction l as [|x l IH]; cbn; auto. rewrite prj_inj. cbn. rewrite IH. auto. Qed.
Lemma block_map l d c x : block l d c = Some x -> block (map inj l) d c = Some (map inj x).
Proof. unfold block. rewrite map_length. destruct (_ && _); [|discriminate]. injection 1 as <-. rewrite skipn_map, firstn_map. auto. Qed.
Lemma paste_map l d x r : paste l d x = Some r -> paste (map inj l) d (map inj x) = Some (map inj r).
Proof. unfold paste. rewrite !map_length. destruct (_ && _); [|discriminate]. injection 1 as <-. rewrite !map_app, firstn_map, skipn_map. auto. Qed.
Lemma collect_map src src' rc rd : (forall p x, src p = Some x -> src' p = Some (map inj x)) ->
  forall ps rcv r, collect src rc rd ps rcv = Some r -> collect src' rc rd ps (map inj rcv) = Some (map inj r).
Proof.
  intros H. induction ps as [|p ps IH]; cbn; intros rcv r E; [injection E as <-; auto|].
  destruct (src p) as [x|] eqn:Ex; cbn in *; [|discriminate]. rewrite (H _ _ Ex). cbn.
  destruct (nth_error rc p); cbn in *; [|discriminate]. destruct (nth_error rd p); cbn in *; [|discriminate]. rewrite map_length.
  destruct (_ =? _)%Z; [|discriminate]. destruct (paste rcv _ _) eqn:Ep; cbn in *; [|discriminate]. rewrite (paste_map _ _ _ _ Ep). cbn. auto.
Qed.
Lemma posted_map (s : slot) p q : posted s p = Some q -> posted (map (option_map req_map) s) p = Some (req_map q).
Proof. unfold posted. rewrite nth_error_map. destruct (nth_error s p) as [[q'|]|]; cbn; try discriminate. injection 1 as <-. auto. Qed.
Lemma reply_map (s : slot) me r : reply s me = Some r -> reply (map (option_map req_map) s) me = Some (map inj r).
Proof.
  unfold reply. rewrite map_length. destruct (posted s me) as [q|] eqn:Eq; [|discriminate]. rewrite (posted_map _ _ _ Eq).
  destruct q; cbn [req_map].
  - apply collect_map. intros p x. destruct (posted s p) as [q|] eqn:Ep; [|discriminate]. rewrite (posted_map _ _ _ Ep). destruct q; try discriminate. cbn [req_map].
    destruct (nth_error sc0 me); cbn; [|discriminate]. destruct (nth_error sd0 me); cbn; [|discriminate]. apply block_map.
  - apply collect_map. intros p x. destruct (posted s p) as [q|] eqn:Ep; [|discriminate]. rewrite (posted_map _ _ _ Ep). destruct q; try discriminate. cbn [req_map]. injection 1 as <-. auto.
  - destruct (me =? root); [discriminate|]. injection 1 as <-. auto.
  - destruct (me =? root); [|discriminate]. apply collect_map. intros p x. destruct (posted s p) as [q|] eqn:Ep; [|discriminate]. rewrite (posted_map _ _ _ Ep).
    destruct q; try discriminate; cbn [req_map]; destruct (_ && _); try discriminate; injection 1 as <-; auto.
  - destruct (me =? root); [discriminate|]. destruct (posted s root) as [q|] eqn:Ep; [|discriminate]. rewrite (posted_map _ _ _ Ep). destruct q; try discriminate. cbn [req_map].
    destruct (nth_error sc me); cbn; [|discriminate]. destruct (nth_error sd me); cbn; [|discriminate]. destruct (block snd _ _) eqn:Eb; cbn; [|discriminate].
    rewrite (block_map _ _ _ _ Eb). cbn. rewrite !map_length. destruct (_ && _); [|discriminate]. injection 1 as <-. auto.
  - destruct (me =? root); [|discriminate]. destruct (nth_error sc me); cbn; [|discriminate]. destruct (nth_error sd me); cbn; [|discriminate]. destruct (block snd _ _) eqn:Eb; cbn; [|discriminate].
    rewrite (block_map _ _ _ _ Eb). cbn. rewrite !map_length. destruct (_ =? _); [|discriminate]. injection 1 as <-. auto.
  - destruct (posted s root) as [q|] eqn:Ep; [|discriminate]. rewrite (posted_map _ _ _ Ep). destruct q; try discriminate. cbn [req_map]. destruct (_ =? _); [|discriminate]. injection 1 as <-. auto.
  - destruct (me =? root); [discriminate|]. injection 1 as <-. auto.
  - destruct (me =? root); [|discriminate]. apply collect_map. intros p y. destruct (posted s p) as [q|] eqn:Ep; [|discriminate]. rewrite (posted_map _ _ _ Ep).
    destruct q; try discriminate; cbn [req_map]; destruct (_ && _); try discriminate; injection 1 as <-; auto.
  - apply collect_map. intros p y. destruct (posted s p) as [q|] eqn:Ep; [|discriminate]. rewrite (posted_map _ _ _ Ep). destruct q; try discriminate. cbn [req_map]. injection 1 as <-. auto.
Qed.
Lemma brun_via {X} n (ps : nat -> mprog T X) xs : brun n ps xs -> brun n (fun i => via (ps i)) xs.
Proof.
  induction 1 as [ps xs H|ps qs ks rs xs H1 H2 H3 IH].
  - apply brun_ret. intros i Hi. rewrite H by auto. auto.
  - apply brun_call with (qs := fun i => req_map (qs i)) (ks := fun i r => match untag r with Some r => via (ks i r) | None => MUB end) (rs := fun i => map inj (rs i)).
    + intros i Hi. rewrite H1 by auto. auto.
    + intros i Hi. specialize (H2 i Hi). apply reply_map in H2. rewrite map_map in H2. exact H2.
    + eapply brun_ext. exact IH. intros i Hi. cbn beta. rewrite untag_map. auto.
Qed.
End Mix.

(** The element types of a space's physical, intermediate and spectral arrays. *)
Inductive mix (P I S : Type) := of_phys (x : P) | of_mid (x : I) | of_spec (x : S).
Arguments of_phys {P I S}. Arguments of_mid {P I S}. Arguments of_spec {P I S}.
Definition get_phys {P I S} (m : mix P I S) : option P := match m with of_phys x => Some x | _ => None end.
Definition get_mid {P I S} (m : mix P I S) : option I := match m with of_mid x => Some x | _ => None end.
Definition get_spec {P I S} (m : mix P I S) : option S := match m with of_spec x => Some x | _ => None end.
Definition phys {P I S X} : mprog P X -> mprog (mix P I S) X := via of_phys get_phys.
Definition mid {P I S X} : mprog I X -> mprog (mix P I S) X := via of_mid get_mid.
Definition spec {P I S X} : mprog S X -> mprog (mix P I S) X := via of_spec get_spec.
