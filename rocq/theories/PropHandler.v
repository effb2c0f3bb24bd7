(** C38: DecompHandler under every history of inserts.
    C39: Space2Mpi registers every decomposition its methods look up. *)
From Coq Require Import List Arith Lia Bool ZArith Reals.
From Verif Require Import Base Num Cheb Compo CompoProofs Fourier FourierProofs NdArray NdArrayFacts AxisFacts Bases LibBase SpaceBases Space MpiSem Decomp MpiSpec DistFacts DecompFacts DistNew PropMpi SpaceMpi.
Import ListNotations.
Local Open Scope nat_scope.

(** The history: decompositions in the order they were inserted. *)
Definition handler_of (ds : list decomp) : handler := fold_left handler_insert ds handler_new.

Section Maps.
Context {K V : Type} (eqb : K -> K -> bool).
Hypothesis eqb_eq : forall a b, eqb a b = true <-> a = b.
Lemma hm_get_insert (m : list (K * V)) k v k' : hm_get eqb (hm_insert eqb m k v) k' = if eqb k' k then Some v else hm_get eqb m k'.
Proof.
  induction m as [|[a w] m IH]; cbn. auto. destruct (eqb k a) eqn:E; cbn.
  - apply eqb_eq in E. subst. destruct (eqb k' a); auto.
  - rewrite IH. destruct (eqb k' a) eqn:E1; auto. destruct (eqb k' k) eqn:E2; auto.
    apply eqb_eq in E1, E2. subst. rewrite (proj2 (eqb_eq a a) eq_refl) in E. discriminate.
Qed.
Lemma hm_get_or (m : list (K * V)) k v k' : hm_get eqb (hm_or_insert eqb m k v) k' =
  match hm_get eqb m k' with Some w => Some w | None => if eqb k' k then Some v else None end.
Proof.
  unfold hm_or_insert. destruct (hm_get eqb m k) as [w|] eqn:E.
  - destruct (hm_get eqb m k') eqn:E'; auto. destruct (eqb k' k) eqn:E2; auto. apply eqb_eq in E2. subst. congruence.
  - rewrite hm_get_insert. destruct (eqb k' k) eqn:E2.
    + apply eqb_eq in E2. subst. rewrite E. auto.
    + destruct (hm_get eqb m k'); auto.
Qed.
Lemma hm_insert_new (m : list (K * V)) k v : hm_get eqb m k = None -> hm_insert eqb m k v = m ++ [(k, v)].
Proof. induction m as [|[a w] m IH]; cbn; auto. destruct (eqb k a); try discriminate. intros H. rewrite IH; auto. Qed.
End Maps.

Lemma nat_eqb_eq a b : (a =? b) = true <-> a = b.
Proof. apply Nat.eqb_eq. Qed.

(** The invariant: the entries of [decomp] are the inserted values, numbered in
    order; the map sends a shape to the number of its first insertion. *)
Lemma handler_inv ds :
  h_decomp (handler_of ds) = combine (seq 0 (length ds)) ds /\
  forall sh, match hm_get list_eqb (h_map (handler_of ds)) sh with
    | Some i => exists l1 d l2, ds = l1 ++ d :: l2 /\ length l1 = i /\ n_global d = sh /\ ~ In sh (map n_global l1)
    | None => ~ In sh (map n_global ds)
    end.
Proof.
  induction ds as [|d ds [IH1 IH2]] using rev_ind.
  - split; [reflexivity|]. intros sh. cbn. auto.
  - unfold handler_of. rewrite fold_left_app. cbn [fold_left]. fold (handler_of ds).
    assert (G : forall (l : list decomp) s i, hm_get Nat.eqb (combine (seq s (length l)) l) i = if s <=? i then nth_error l (i - s) else None).
    { clear. induction l as [|a l IH]; intros s i; cbn [length seq combine hm_get].
      - destruct (s <=? i); auto. destruct (i - s); auto.
      - rewrite IH. destruct (Nat.eqb_spec i s). subst. rewrite Nat.leb_refl, Nat.sub_diag. auto.
        destruct (Nat.leb_spec s i), (Nat.leb_spec (S s) i); try lia; auto. replace (i - s) with (S (i - S s)) by lia. auto. }
    assert (L : length (h_decomp (handler_of ds)) = length ds).
    { rewrite IH1, combine_length, seq_length. lia. }
    split.
    + unfold handler_insert. cbn [h_decomp]. rewrite L. rewrite hm_insert_new.
      * rewrite IH1, app_length. cbn [length]. rewrite seq_app. cbn [seq plus].
        assert (C : forall (l : list decomp) s, combine (seq s (length l) ++ [s + length l]) (l ++ [d]) = combine (seq s (length l)) l ++ [(s + length l, d)]).
        { clear. induction l as [|a l IH]; intros s; cbn [length seq combine app]. rewrite Nat.add_0_r; auto. replace (s + S (length l)) with (S s + length l) by lia. f_equal. apply IH. }
        symmetry. apply (C ds 0).
      * rewrite IH1, G. cbn. rewrite Nat.sub_0_r. apply nth_error_None. lia.
    + intros sh. unfold handler_insert. cbn [h_map]. rewrite L, (hm_get_or list_eqb list_eqb_eq). specialize (IH2 sh).
      destruct (hm_get list_eqb (h_map (handler_of ds)) sh) as [i|].
      * destruct IH2 as (l1 & e & l2 & -> & E). exists l1, e, (l2 ++ [d]). rewrite <- app_assoc. auto.
      * destruct (list_eqb sh (n_global d)) eqn:E.
        -- apply list_eqb_eq in E. exists ds, d, []. repeat split; auto.
        -- rewrite map_app, in_app_iff. intros [H|[H|[]]]; auto. rewrite <- H in E.
           rewrite (proj2 (list_eqb_eq _ _) eq_refl) in E. discriminate.
Qed.

(** C38: after any history the lookup returns the first decomposition inserted
    with exactly that shape; it panics iff there is none. *)
Theorem C38_lookup : forall ds sh,
  (forall d, handler_get (handler_of ds) sh = Ok d <->
     n_global d = sh /\ exists before after, ds = before ++ d :: after /\ forall e, In e before -> n_global e <> sh) /\
  (handler_get (handler_of ds) sh = Panic <-> forall e, In e ds -> n_global e <> sh).
Proof.
  intros ds sh. destruct (handler_inv ds) as [H1 H2]. specialize (H2 sh). unfold handler_get.
  destruct (hm_get list_eqb (h_map (handler_of ds)) sh) as [i|]; cbn [unwrap bind].
  - destruct H2 as (l1 & d & l2 & E & Li & Ns & Nin). rewrite H1.
    assert (G : forall (l : list decomp) s i, hm_get Nat.eqb (combine (seq s (length l)) l) i = if s <=? i then nth_error l (i - s) else None).
    { clear. induction l as [|a l IH]; intros s i; cbn [length seq combine hm_get].
      - destruct (s <=? i); auto. destruct (i - s); auto.
      - rewrite IH. destruct (Nat.eqb_spec i s). subst. rewrite Nat.leb_refl, Nat.sub_diag. auto.
        destruct (Nat.leb_spec s i), (Nat.leb_spec (S s) i); try lia; auto. replace (i - s) with (S (i - S s)) by lia. auto. }
    rewrite G. cbn [Nat.leb]. rewrite Nat.sub_0_r. assert (En : nth_error ds i = Some d) by (rewrite E, nth_error_app2, Li, Nat.sub_diag by lia; reflexivity). rewrite En. cbn [unwrap].
    split.
    + intros e. split.
      * intros K. injection K as <-. split; auto. exists l1, l2. split; auto. intros e He Hn. apply Nin. rewrite <- Hn. apply in_map. auto.
      * intros (Ne & l1' & l2' & E' & Nb). f_equal. rewrite E in E'.
        assert (U : forall a b (x y : decomp) c e', a ++ x :: c = b ++ y :: e' -> n_global x = sh -> n_global y = sh ->
          (forall z, In z a -> n_global z <> sh) -> (forall z, In z b -> n_global z <> sh) -> x = y).
        { clear. induction a as [|z a IH]; intros [|w b] x y c e' H Hx Hy Ha Hb; cbn in H; injection H as H H'.
          - auto.
          - exfalso. apply (Hb w); cbn; auto. congruence.
          - exfalso. apply (Ha z); cbn; auto. congruence.
          - apply (IH b x y c e'); auto; intros; [apply Ha|apply Hb]; cbn; auto. }
        apply (U l1 l1' d e l2 l2'); auto. intros z Hz Hn. apply Nin. rewrite <- Hn. apply in_map; auto.
    + split; [discriminate|]. intros K. exfalso. apply (K d); auto. rewrite E. apply in_elt.
  - split.
    + intros d. split; [discriminate|]. intros (Nd & l1 & l2 & E & _). exfalso. apply H2. rewrite <- Nd. apply in_map. rewrite E. apply in_elt.
    + split; auto. intros _ e He Hn. apply H2. rewrite <- Hn. apply in_map; auto.
Qed.

(** Inserting a shape again is invisible to every lookup, but the public map
    [decomp] always holds one entry per insert. *)
Theorem C38_duplicates : forall ds d, (exists e, In e ds /\ n_global e = n_global d) ->
  (forall sh, handler_get (handler_of (ds ++ [d])) sh = handler_get (handler_of ds) sh) /\
  length (h_decomp (handler_of (ds ++ [d]))) = S (length (h_decomp (handler_of ds))).
Proof.
  intros ds d (e & He & Hn). split.
  - intros sh. destruct (C38_lookup ds sh) as [A B], (C38_lookup (ds ++ [d]) sh) as [A' B'].
    destruct (handler_get (handler_of ds) sh) as [x| |] eqn:E.
    + apply A'. destruct (proj1 (A x) eq_refl) as (N & l1 & l2 & -> & K). split; auto. exists l1, (l2 ++ [d]). rewrite <- app_assoc. auto.
    + apply B'. intros z Hz. pose proof (proj1 B eq_refl) as Kz. apply in_app_iff in Hz as [Hz|[->|[]]]; auto. rewrite <- Hn. auto.
    + exfalso. unfold handler_get in E. destruct (hm_get _ _ _); cbn in E; try discriminate. destruct (hm_get _ _ _); discriminate.
  - rewrite !(proj1 (handler_inv _)), !combine_length, !seq_length, app_length. cbn. lia.
Qed.
Theorem C38_one_entry_per_insert : forall ds, length (h_decomp (handler_of ds)) = length ds /\
  forall i, i < length ds -> hm_get Nat.eqb (h_decomp (handler_of ds)) i = nth_error ds i.
Proof.
  intros ds. rewrite (proj1 (handler_inv ds)). split. rewrite combine_length, seq_length. lia.
  intros i Hi.
  assert (G : forall (l : list decomp) s i, hm_get Nat.eqb (combine (seq s (length l)) l) i = if s <=? i then nth_error l (i - s) else None).
  { clear. induction l as [|a l IH]; intros s i; cbn [length seq combine hm_get].
    - destruct (s <=? i); auto. destruct (i - s); auto.
    - rewrite IH. destruct (Nat.eqb_spec i s). subst. rewrite Nat.leb_refl, Nat.sub_diag. auto.
      destruct (Nat.leb_spec s i), (Nat.leb_spec (S s) i); try lia; auto. replace (i - s) with (S (i - S s)) by lia. auto. }
  rewrite G. cbn. rewrite Nat.sub_0_r. auto.
Qed.
Example C38_nonvacuous : exists d1 d2 d3, decomp_new Debug 2 0 [4; 5] = Ok d1 /\ decomp_new Debug 2 0 [4; 3] = Ok d2 /\ decomp_new Debug 2 1 [4; 5] = Ok d3 /\
  handler_get (handler_of [d1; d2; d3]) [4; 5] = Ok d1 /\ handler_get (handler_of [d1; d2; d3]) [4; 3] = Ok d2 /\
  handler_get (handler_of [d1; d2; d3]) [5; 4] = Panic /\ length (h_decomp (handler_of [d1; d2; d3])) = 3.
Proof. do 3 eexists. repeat split; reflexivity. Qed.

(** ** C39 *)
Lemma lib_orth P S T VP VS VT b : lib_base P S T VP VS VT b -> len_orth b = len_phys b \/ len_orth b = len_spec b.
Proof.
  intros [].
  - apply new_chebyshev_inv in H as [_ ->]. left. reflexivity.
  - apply new_composite_inv in H as (c & Hc & ->). destruct (compo_new_inv k n c Hc) as (_ & E & _ & E' & _). left. cbn [r2r_ops len_orth len_phys]. unfold compo_len_orth, compo_len_phys. rewrite E'. cbn. auto.
  - apply r2c_new_inv in H as [_ ->]. right. reflexivity.
  - apply c2c_new_inv in H as [_ ->]. right. reflexivity.
Qed.

Lemma decomp_new_shape bm p me sh d : decomp_new bm p me sh = Ok d -> n_global d = sh.
Proof.
  unfold decomp_new. destruct (dist_new bm sh p me 0); try discriminate. destruct (dist_new bm sh p me 1); try discriminate. intros H. injection H as <-. auto.
Qed.

Section New.
Context {P I S : Type}.
Variables (bm : bmode) (p me : nat) (sp : space2 P I S S).
Notation b0 := (s2_base0 sp). Notation b1 := (s2_base1 sp).
(** What the constructor registers. *)
Lemma s2mpi_new_inv sm : s2mpi_new bm p me sp = Ok sm -> sm_space sm = sp /\
  exists ds, sm_handler sm = handler_of ds /\ (forall d, In d ds -> decomp_new bm p me (n_global d) = Ok d) /\
    forall e0 e1, e0 = len_phys b0 \/ e0 = len_spec b0 -> e1 = len_phys b1 \/ e1 = len_spec b1 -> In [e0; e1] (map n_global ds).
Proof.
  unfold s2mpi_new. destruct (decomp_new bm p me [len_phys b0; len_phys b1]) as [d1| |] eqn:E1; try discriminate. cbn [bind].
  destruct (negb (len_spec b0 =? len_phys b0)) eqn:N0.
  - destruct (decomp_new bm p me [len_spec b0; len_phys b1]) as [d2| |] eqn:E2; try discriminate. cbn [bind].
    destruct (negb (len_spec b1 =? len_phys b1)) eqn:N1; cbn [andb].
    + destruct (decomp_new bm p me [len_phys b0; len_spec b1]) as [d3| |] eqn:E3; try discriminate. cbn [bind].
      destruct (decomp_new bm p me [len_spec b0; len_spec b1]) as [d4| |] eqn:E4; try discriminate. cbn [bind].
      intros H. injection H as <-. split; auto. exists [d1; d2; d3; d4]. split; [reflexivity|].
      pose proof (decomp_new_shape _ _ _ _ _ E1) as S1. pose proof (decomp_new_shape _ _ _ _ _ E2) as S2. pose proof (decomp_new_shape _ _ _ _ _ E3) as S3. pose proof (decomp_new_shape _ _ _ _ _ E4) as S4.
      split. { intros d [<-|[<-|[<-|[<-|[]]]]]; congruence. }
      intros e0 e1 [->| ->] [->| ->]; cbn; rewrite S1, S2, S3, S4; auto.
    + intros H. injection H as <-. split; auto. exists [d1; d2]. split; [reflexivity|].
      pose proof (decomp_new_shape _ _ _ _ _ E1) as S1. pose proof (decomp_new_shape _ _ _ _ _ E2) as S2.
      apply negb_false_iff, Nat.eqb_eq in N1. split. { intros d [<-|[<-|[]]]; congruence. }
      intros e0 e1 [->| ->] [->| ->]; cbn; rewrite S1, S2, ?N1; auto.
  - cbn [bind]. destruct (negb (len_spec b1 =? len_phys b1)) eqn:N1; cbn [andb].
    + destruct (decomp_new bm p me [len_phys b0; len_spec b1]) as [d3| |] eqn:E3; try discriminate. cbn [bind].
      intros H. injection H as <-. split; auto. exists [d1; d3]. split; [reflexivity|].
      pose proof (decomp_new_shape _ _ _ _ _ E1) as S1. pose proof (decomp_new_shape _ _ _ _ _ E3) as S3.
      apply negb_false_iff, Nat.eqb_eq in N0. split. { intros d [<-|[<-|[]]]; congruence. }
      intros e0 e1 [->| ->] [->| ->]; cbn; rewrite S1, S3, ?N0; auto.
    + intros H. injection H as <-. split; auto. exists [d1]. split; [reflexivity|].
      pose proof (decomp_new_shape _ _ _ _ _ E1) as S1.
      apply negb_false_iff, Nat.eqb_eq in N0, N1. split. { intros d [<-|[]]; congruence. }
      intros e0 e1 [->| ->] [->| ->]; cbn; rewrite S1, ?N0, ?N1; auto.
Qed.
End New.

(** C39: whatever the bases, once the constructor has returned, the lookup of
    any combination of physical, spectral and orthogonal lengths returns the
    decomposition of exactly that shape. (The distributed methods look up five
    of these nine shapes.) *)
Theorem C39_every_lookup_is_registered :
  forall P I S (VP : Vec R P) (VI : Vec R I) (VS : Vec R S) (b0 : base_ops I S S) (b1 : base_ops P I S),
  lib_base I S S VI VS VS b0 -> lib_base P I S VP VI VS b1 ->
  forall bm p me sm, s2mpi_new bm p me (mk_space2 b0 b1) = Ok sm ->
  forall e0 e1, In e0 [len_phys b0; len_spec b0; len_orth b0] -> In e1 [len_phys b1; len_spec b1; len_orth b1] ->
  exists d, get_dcp sm [e0; e1] = Ok d /\ decomp_new bm p me [e0; e1] = Ok d.
Proof.
  intros P I S VP VI VS b0 b1 L0 L1 bm p me sm H e0 e1 H0 H1.
  pose proof (lib_orth _ _ _ _ _ _ _ L0) as O0. pose proof (lib_orth _ _ _ _ _ _ _ L1) as O1.
  destruct (s2mpi_new_inv _ _ _ _ _ H) as (_ & ds & Eh & Hd & Hr). cbn [s2_base0 s2_base1] in Hr.
  assert (K : In [e0; e1] (map n_global ds)).
  { apply Hr.
    - destruct H0 as [<-|[<-|[<-|[]]]]; auto.
    - destruct H1 as [<-|[<-|[<-|[]]]]; auto. }
  unfold get_dcp. rewrite Eh. destruct (C38_lookup ds [e0; e1]) as [A B].
  destruct (handler_get (handler_of ds) [e0; e1]) as [d| |] eqn:E.
  - exists d. split; auto. destruct (proj1 (A d) eq_refl) as (N & l1 & l2 & -> & _). rewrite <- N. apply Hd. apply in_elt.
  - exfalso. apply in_map_iff in K as (d & Nd & Id). apply (proj1 B eq_refl d Id). auto.
  - exfalso. unfold handler_get in E. destruct (hm_get _ _ _); cbn in E; try discriminate. destruct (hm_get _ _ _); discriminate.
Qed.
Print Assumptions C39_every_lookup_is_registered.

(** The constructor returns on every rank as soon as no extent is smaller than
    the number of ranks (see C34 for the other case). *)
Theorem C39_constructor_returns :
  forall P I S (VP : Vec R P) (VI : Vec R I) (VS : Vec R S) (b0 : base_ops I S S) (b1 : base_ops P I S),
  lib_base I S S VI VS VS b0 -> lib_base P I S VP VI VS b1 ->
  forall bm p me, 1 <= p -> me < p -> p <= len_phys b0 -> p <= len_phys b1 -> p <= len_spec b0 -> p <= len_spec b1 ->
  (forall n, In n [len_phys b0; len_phys b1; len_spec b0; len_spec b1] -> (Z.of_nat n < 2 ^ 64 - 1)%Z) ->
  exists sm, s2mpi_new bm p me (mk_space2 b0 b1) = Ok sm /\ sm_space sm = mk_space2 b0 b1.
Proof.
  intros P I S VP VI VS b0 b1 L0 L1 bm p me Hp Hm A0 A1 A2 A3 Hb.
  assert (B : forall n, In n [len_phys b0; len_phys b1; len_spec b0; len_spec b1] -> (Z.of_nat n + 1 < u64max)%Z).
  { intros n Hn. specialize (Hb n Hn). unfold u64max. lia. }
  unfold s2mpi_new. cbn [s2_base0 s2_base1].
  rewrite decomp_new_ok by (auto; apply B; cbn; auto). cbn [bind].
  destruct (negb (len_spec b0 =? len_phys b0)); [rewrite decomp_new_ok by (auto; apply B; cbn; auto)|]; cbn [bind andb];
  (destruct (negb (len_spec b1 =? len_phys b1)); [rewrite decomp_new_ok by (auto; apply B; cbn; auto)|]); cbn [bind];
  try (rewrite decomp_new_ok by (auto; apply B; cbn; auto)); cbn [bind]; eexists; split; reflexivity.
Qed.
