(** Lemmas for C62: which calls of field.rs panic. *)
From Coq Require Import List Arith Lia Bool ZArith Reals Lra.
From Verif Require Import Base Num Linalg Stencils Cheb Compo CompoProofs ChebPinv3 Fourier NdArray Bases LibBase Space Elements Field.
Import ListNotations.
Local Open Scope nat_scope.

(** Returns with [Q] or panics; never undefined behaviour. *)
Definition noub {X} (m : res X) (Q : X -> Prop) : Prop := match m with Ok a => Q a | Panic => True | UB => False end.
Lemma noub_bind {X Y} (m : res X) (k : X -> res Y) (Q : X -> Prop) (Q' : Y -> Prop) : noub m Q -> (forall a, Q a -> noub (k a) Q') -> noub (bind m k) Q'.
Proof. destruct m; cbn; auto. Qed.
Lemma noub_mono {X} (m : res X) (Q Q' : X -> Prop) : noub m Q -> (forall a, Q a -> Q' a) -> noub m Q'.
Proof. destruct m; cbn; auto. Qed.
Lemma noub_panic {X Y} (m : res X) (k : X -> res Y) Q : noub m Q -> (forall a, Q a -> k a = Panic) -> bind m k = Panic.
Proof. destruct m; cbn; auto. tauto. Qed.
Lemma noub_for {I S} (l : list I) (body : I -> S -> res S) (Inv : S -> Prop) : (forall i s, Inv s -> noub (body i s) Inv) -> forall s, Inv s -> noub (for_each l body s) Inv.
Proof. intros H. induction l as [|i l IH]; intros s Hs; cbn; auto. eapply noub_bind. apply (H i s Hs). auto. Qed.
Lemma noub_rd {X} (l : list X) i : noub (rd Checked l i) (fun x => nth_error l i = Some x).
Proof. unfold rd. destruct (nth_error l i) eqn:E; cbn; auto. Qed.
Lemma noub_wr {X} (l : list X) i x : noub (wr Checked l i x) (fun l' => l' = upd l i x).
Proof. unfold wr. destruct (i <? length l); cbn; auto. Qed.
Lemma noub_uwrap bm z : noub (uwrap bm z) (fun _ => True).
Proof. unfold uwrap. destruct (_ && _); cbn; auto. destruct bm; cbn; auto. Qed.

Section Mat.
Context {A : Type} {dA : Dflt A}.
Implicit Type M : list (list A).
Lemma upd_nth_error {X} (l : list X) i x k : nth_error (upd l i x) k = if k =? i then (if i <? length l then Some x else None) else nth_error l k.
Proof.
  revert i k. induction l as [|h l IH]; intros [|i] [|k]; cbn; auto. destruct (k =? i); auto. rewrite IH. reflexivity.
Qed.
Lemma upd_len {X} (l : list X) i x : length (upd l i x) = length l.
Proof. revert i. induction l as [|h l IH]; intros [|i]; cbn; auto. Qed.
Definition dims M r c : Prop := length M = r /\ forall row, In row M -> length row = c.
Lemma dims_mzeros (z : A) r c : dims (mzeros z r c) r c.
Proof. unfold mzeros. split. apply repeat_length. intros row H. apply repeat_spec in H as ->. apply repeat_length. Qed.
Lemma in_upd {X} (l : list X) i x y : In y (upd l i x) -> In y l \/ y = x.
Proof. revert i. induction l as [|h l IH]; intros [|i]; cbn; auto. intros [H|H]; auto. intros [H|H]; auto. destruct (IH i H); auto. Qed.
Lemma noub_mwr M r c i j x : dims M r c -> noub (mwr M i j x) (fun M' => dims M' r c).
Proof.
  intros [L W]. unfold mwr. eapply noub_bind. apply noub_rd. intros row Hr. eapply noub_bind. apply noub_wr. intros row' ->. eapply noub_mono. apply noub_wr. intros M' ->.
  split. rewrite upd_len; auto. intros y Hy. apply in_upd in Hy as [Hy| ->]; auto. rewrite upd_len. apply W. eapply nth_error_In. exact Hr.
Qed.
Lemma dims_ncols {N : Num A} M r c : dims M r c -> 1 <= r -> ncols M = c.
Proof. intros [L W] H. destruct M as [|row M]; cbn in *. lia. apply W. auto. Qed.
Lemma mwr_oob M r c i j x : dims M r c -> r <= i \/ c <= j -> mwr M i j x = Panic.
Proof.
  intros [L W] H. unfold mwr, rd. destruct (nth_error M i) as [row|] eqn:E; [|reflexivity]. cbn [bind]. assert (i < r). { rewrite <- L. apply nth_error_Some. congruence. }
  unfold wr. rewrite (W row) by (eapply nth_error_In; eauto). destruct (Nat.ltb_spec j c); [lia|reflexivity].
Qed.
End Mat.

Section Panics.
Context {A : Type} {N : Num A}.

Ltac un := repeat (first [apply noub_uwrap | (eapply noub_bind with (Q := fun _ => True); [|intros ? _]) | exact Logic.I | (cbn; exact Logic.I)]).
Lemma noub_pdiag (P : list (list A)) r c lo hi col num dv : dims P r c -> (forall i, noub (dv i) (fun _ => True)) -> noub (pdiag P lo hi col num dv) (fun P' => dims P' r c).
Proof. intros H Hd. unfold pdiag. apply noub_for; auto. intros i s Hs. eapply noub_bind. apply Hd. intros z _. apply noub_mwr. auto. Qed.

Lemma noub_u (f : bmode -> res Z -> res Z -> res Z) bm a b : f = uadd \/ f = umul \/ f = uminus -> noub a (fun _ => True) -> noub b (fun _ => True) -> noub (f bm a b) (fun _ => True).
Proof. intros H Ha Hb. destruct H as [->|[->| ->]]; unfold uadd, umul, uminus; (eapply noub_bind; [exact Ha|]; intros ? _; eapply noub_bind; [exact Hb|]; intros ? _; apply noub_uwrap). Qed.
Lemma noub_pinv2 bm n : noub (pinv (A := A) bm n 2) (fun P => dims P n n).
Proof.
  unfold pinv. eapply noub_bind. apply noub_mwr. apply dims_mzeros. intros P1 D1.
  eapply noub_bind. apply noub_pdiag; [exact D1|]. { intros. repeat (apply noub_u; [auto| |]); exact Logic.I. } intros P2 D2.
  eapply noub_bind. apply noub_u; [auto| |]; exact Logic.I. intros h _.
  eapply noub_bind. apply noub_pdiag; [exact D2|]. { intros. repeat (apply noub_u; [auto| |]); exact Logic.I. } intros P3 D3.
  eapply noub_bind. apply noub_u; [auto| |]; exact Logic.I. intros h' _.
  apply noub_pdiag; [exact D3|]. intros. repeat (apply noub_u; [auto| |]); exact Logic.I.
Qed.
Lemma pinv2_small bm n : n < 4 -> pinv (A := A) bm n 2 = Panic.
Proof.
  intros H. destruct n as [|[|[|[|]]]]; try lia; [reflexivity..|].
  unfold pinv. eapply noub_panic. apply noub_mwr. apply dims_mzeros. intros P1 D1.
  eapply noub_panic. apply noub_pdiag; [exact D1|]. { intros. repeat (apply noub_u; [auto| |]); exact Logic.I. } intros P2 D2.
  change (uminus bm (Ok (Z.of_nat 3)) (Ok 2%Z)) with (Ok 1%Z). cbn [bind].
  change (pdiag P2 2 1 _ _ _) with (Ok P2). cbn [bind].
  destruct bm; [reflexivity|]. change (uminus Release (Ok (Z.of_nat 3)) (Ok 4%Z)) with (Ok 18446744073709551615%Z). cbn [bind].
  unfold pdiag, range. destruct (Z.to_nat 18446744073709551615 - 2) as [|k] eqn:E; [exfalso; lia|]. cbn [seq for_each].
  match goal with |- bind ?m _ = _ => assert (X : m = Panic); [|rewrite X; reflexivity] end.
  match goal with |- bind ?m _ = _ => let v := eval vm_compute in m in change m with v end. cbn [bind]. apply (mwr_oob P2 3 3); auto. right. cbn. lia.
Qed.
Lemma dims_eye n : dims (eye (A := A) n) n n.
Proof. unfold eye. split. rewrite map_length, seq_length. auto. intros row H. apply in_map_iff in H as (i & <- & _). rewrite map_length, seq_length. auto. Qed.
Lemma dims_skipn (M : list (list A)) r c k : dims M r c -> dims (skipn k M) (r - k) c.
Proof. intros [L W]. split. rewrite skipn_length. lia. intros row H. apply W. rewrite <- (firstn_skipn k M). apply in_or_app. auto. Qed.
Lemma noub_lap_pinv bm n : 2 <= n -> noub (cheb_laplacian_pinv (A := A) bm (mk_cheb n n)) (fun PE => 4 <= n /\ dims (fst PE) n n /\ dims (snd PE) (n - 2) n).
Proof.
  intros Hn. unfold cheb_laplacian_pinv, cheb_diffmat_pinv. cbn [assertb Nat.ltb Nat.leb bind c_n].
  destruct (Nat.ltb_spec n 4) as [H|H]. { rewrite pinv2_small by auto. exact Logic.I. }
  eapply noub_bind. apply noub_pinv2. intros P DP. unfold pinv_eye. destruct (Nat.leb_spec 2 n); [|lia]. cbn [assertb bind noub]. split; auto. split; auto. apply dims_skipn, dims_eye.
Qed.
Lemma noub_lap bm n : noub (cheb_laplacian (A := A) bm (mk_cheb n n)) (fun _ => True).
Proof.
  unfold cheb_laplacian, cheb_diffmat. cbn [assertb Nat.ltb Nat.leb bind c_n]. unfold dmat. eapply noub_bind with (Q := fun M => dims M n n).
  - unfold dmat_fill. apply noub_for. 2: apply dims_mzeros. intros p M DM. apply noub_for; auto. intros q M' DM'. destruct (_ =? _); [|exact DM'].
    eapply noub_bind with (Q := fun _ => True). { unfold dent2. repeat (apply noub_u; [auto| |]); exact Logic.I. } intros z _. apply noub_mwr; auto.
  - intros M _. eapply noub_bind. apply noub_rd. intros r0 _. eapply noub_mono. apply noub_wr. auto.
Qed.
Lemma noub_stencil (s : stencil A) : noub (stencil_to_array s) (fun _ => True).
Proof.
  assert (G : forall r c l (body : nat -> list (list A) -> res (list (list A))), (forall i M, dims M r c -> noub (body i M) (fun M => dims M r c)) -> noub (for_each l body (mzeros n0 r c)) (fun _ => True)).
  { intros r c l body H. eapply noub_mono. apply (noub_for l body (fun M => dims M r c)); auto. apply dims_mzeros. auto. }
  destruct s as [h|h|h|h|h]; cbn [stencil_to_array]; unfold st2_to_array, st3_to_array, st4_to_array; apply G; intros i M D;
  repeat first [apply noub_mwr; assumption | eapply noub_bind; [first [apply noub_rd | eapply noub_mwr; eassumption] |intros ? ?; cbv beta in *]].
Qed.

(** [laplacian_pinv] of one base is n x n and (n-2) x n: the product of the second
    with the first does not fit into the first. *)
Lemma mdot_dims (a b : list (list A)) r m c : dims a r m -> dims b m c -> 1 <= r -> 1 <= m -> exists t, mdot a b = Ok t /\ dims t r c.
Proof.
  intros [La Wa] Db Hr Hm. unfold mdot. rewrite (dims_ncols a r m) by (auto; split; auto). rewrite (proj1 Db), Nat.eqb_refl. cbn [assertb bind]. eexists. split; [reflexivity|].
  split. rewrite map_length; auto. intros row H. apply in_map_iff in H as (x & <- & _). rewrite map_length, seq_length. apply (dims_ncols b m c); auto.
Qed.
Lemma massign_panics (a b : list (list A)) : length b <> length a -> length b <> 1 -> massign a b = Panic.
Proof. intros H1 H2. unfold massign. apply Nat.eqb_neq in H1. apply Nat.eqb_neq in H2. rewrite H1, H2. reflexivity. Qed.
Lemma pinv_stage bm n {X} (k : list (list A) -> list (list A) -> list (list A) -> res X) : 2 <= n ->
  (let* pp := cheb_laplacian_pinv bm (mk_cheb n n) in let '(pinv, peye) := pp in let* tmp := mdot peye pinv in let* pinv' := massign pinv tmp in k pinv peye pinv') = Panic.
Proof.
  intros Hn. eapply noub_panic. apply (noub_lap_pinv bm n Hn). intros [P E] (H4 & DP & DE). cbn [fst snd] in *.
  destruct (mdot_dims E P (n - 2) n n DE DP ltac:(lia) ltac:(lia)) as (t & -> & Dt). cbn [bind]. rewrite massign_panics; [reflexivity| |]; rewrite (proj1 Dt), ?(proj1 DP); lia.
Qed.
End Panics.
