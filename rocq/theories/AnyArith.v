(** The slice methods of the Chebyshev-type bases over an arbitrary arithmetic
    (no law of the operations is used): which calls return, and that the result
    is a function of the input alone. *)
From Coq Require Import List Arith Lia Bool ZArith.
From Verif Require Import Base Num Linalg LinalgProofs LinalgProofs2 LinalgModes Stencils StencilProofs StencilProofs2 Cheb ChebGrad Compo CompoProofs CompoFacts3 BaseLin.
Import ListNotations.
Local Open Scope nat_scope.

(** [f] on slices of lengths l1, l2 always succeeds; the result has length l2
    and does not depend on the old output. *)
Definition fnop {T1 T2} (f : list T1 -> list T2 -> res (list T2)) (l1 l2 : nat) : Prop :=
  exists g, forall x y, length x = l1 -> length y = l2 -> f x y = Ok (g x) /\ length (g x) = l2.

Lemma fnop_formula {T1 T2} {d : Dflt T2} (f : list T1 -> list T2 -> res (list T2)) l1 l2 (F : list T1 -> nat -> T2) :
  (forall x y, length x = l1 -> length y = l2 -> wp (f x y) (fun z => length z = l2 /\ forall i, i < l2 -> z.[i] = F x i)) -> fnop f l1 l2.
Proof.
  intros H. exists (fun x => map (F x) (seq 0 l2)). intros x y Hx Hy. pose proof (H x y Hx Hy) as W. apply wp_Ok in W as (z & -> & Lz & Ez).
  assert (Lg : length (map (F x) (seq 0 l2)) = l2) by (rewrite map_length, seq_length; auto). split; auto.
  f_equal. apply list_ext. congruence. intros i Hi. rewrite Ez, at_map_seq by lia. auto.
Qed.
Lemma fnop_fix {T1 T2} (f : list T1 -> list T2 -> res (list T2)) (f' : list T1 -> res (list T2)) l1 l2 :
  (forall x y, length x = l1 -> length y = l2 -> f x y = f' x) -> (forall x, length x = l1 -> wp (f' x) (fun z => length z = l2)) -> fnop f l1 l2.
Proof.
  intros H1 H2. exists (fun x => match f' x with Ok z => z | _ => [] end). intros x y Hx Hy. rewrite H1 by auto.
  pose proof (H2 x Hx) as W. apply wp_Ok in W as (z & -> & Lz). auto.
Qed.
Lemma fnop_comp {T1 T2 T3} (f1 : list T1 -> list T2 -> res (list T2)) (f2 : list T2 -> list T3 -> res (list T3)) l1 l2 l3 m0 :
  fnop f1 l1 l2 -> fnop f2 l2 l3 -> length m0 = l2 -> fnop (fun x y => let* m := f1 x m0 in f2 m y) l1 l3.
Proof.
  intros (g1 & C1) (g2 & C2) Lm. exists (fun x => g2 (g1 x)). intros x y Hx Hy. destruct (C1 x m0 Hx Lm) as [-> L]. cbn [bind]. apply C2; auto.
Qed.
Lemma fnop_ext {T1 T2} (f f' : list T1 -> list T2 -> res (list T2)) l1 l2 :
  (forall x y, length x = l1 -> length y = l2 -> f x y = f' x y) -> fnop f l1 l2 -> fnop f' l1 l2.
Proof. intros E (g & C). exists g. intros x y Hx Hy. rewrite <- E by auto. apply C; auto. Qed.
Lemma fnop_copy {T} n : fnop (fun x y : list T => Ok (zip_write y x)) n n.
Proof. exists (fun x => x). intros x y Hx Hy. rewrite zip_write_full by congruence. auto. Qed.

(** ** Symbolic execution, lengths only *)
Lemma wp_st_len {B} md (l : list B) i (e : res B) (Q : list B -> Prop) :
  wp e (fun x => i < length l /\ forall l', length l' = length l -> Q l') -> wp (st md l i e) Q.
Proof.
  intros H. unfold st. apply wp_bind. eapply wp_mono; eauto. intros a [Hi HQ]. unfold wr. destruct (Nat.ltb_spec i (length l)); [|lia].
  cbn [wp]. apply HQ. apply upd_length.
Qed.
Ltac lnl := solve [ rewrite ?repeat_length in *; lia ].
Ltac wl1 :=
  match goal with
  | |- wp (bind _ _) _ => apply wp_bind
  | |- wp (lift2 _ _ _) _ => apply wp_lift2
  | |- wp (rd _ _ _) _ => apply wp_rd; [ lnl | ]
  | |- wp (Ok _) _ => cbn [wp]
  | |- wp (st _ _ _ _) _ => apply wp_st_len
  | |- wp (usub _ _) _ => apply wp_usub; [ lnl | ]
  | |- wp (assertb (_ <? _)) _ => apply wp_assert; [ apply Nat.ltb_lt; lnl | ]
  | |- wp (assertb (_ =? _)) _ => apply wp_assert; [ apply Nat.eqb_eq; lnl | ]
  | |- _ /\ (forall l', length l' = _ -> _) => split; [ lnl | let l := fresh "l" in let HL := fresh "HL" in intros l HL; rewrite ?repeat_length in HL ]
  end.
Ltac wl := repeat (wl1; cbv beta).

(** a loop that keeps an invariant *)
Lemma wp_loop {I S} (l : list I) (body : I -> S -> res S) (P Q : S -> Prop) s :
  P s -> (forall i s, In i l -> P s -> wp (body i s) P) -> (forall s, P s -> Q s) -> wp (for_each l body s) Q.
Proof.
  intros H0 Hb HQ. revert s H0. induction l as [|i l IH]; intros s H0; cbn [for_each]. cbn. auto.
  apply wp_bind. eapply wp_mono. apply Hb; auto. now left. intros s' Hs'. apply IH; auto. intros; apply Hb; auto. now right.
Qed.
Lemma in_range i lo hi : In i (range lo hi) -> lo <= i < hi.
Proof. unfold range. intros H. apply in_seq in H. lia. Qed.
Lemma in_rrange i lo hi : In i (rev (range lo hi)) -> lo <= i < hi.
Proof. intros H. apply in_rev in H. apply in_range. auto. Qed.
Ltac loop P := apply (wp_loop _ _ P);
  [ try lnl | let i := fresh "i" in let s := fresh "s" in let Hi := fresh "Hi" in let Hs := fresh "Hs" in
      intros i s Hi Hs; first [apply in_range in Hi | apply in_rrange in Hi]; cbv beta in * 
  | let s := fresh "s" in let Hs := fresh "Hs" in intros s Hs; cbv beta in * ].

Section Generic.
Context {A T : Type} {N : Num A} {V : Vec A T}.

(** ** Solvers *)
Lemma tdma_len md (l2 d0 u2 : list A) (rhs : list T) n : 3 <= n -> length rhs = n -> length d0 = n -> length l2 = n - 2 -> length u2 = n - 2 ->
  wp (tdma md l2 d0 u2 rhs) (fun z => length z = n).
Proof.
  intros Hn Lr Ld Ll Lu. unfold tdma. rewrite Lr. wl.
  destruct (Nat.ltb_spec 1 (length u2)); wl.
  all: loop (fun w : list A => length w = n - 2); [wl; lia|]; wl; loop (fun g : list T => length g = n); [wl; lia|]; wl;
    loop (fun r : list T => length r = n); [wl; lia|lia].
Qed.
Definition pd_lens (n na nb : nat) (s : pd_state (A := A) (T := T)) : Prop :=
  length (s_al s) = na /\ length (s_be s) = nb /\ length (s_ze s) = n /\ length (s_ga s) = n /\ length (s_mu s) = n.
Ltac pd := match goal with s : pd_state |- _ => let al := fresh "al" in let be := fresh "be" in let ze := fresh "ze" in let ga := fresh "ga" in let mu := fresh "mu" in destruct s as [al be ze ga mu]; unfold pd_lens in *; cbn [s_al s_be s_ze s_ga s_mu] in * end.

Lemma pdma_len md (l2 l1 d0 u1 u2 : list A) (rhs : list T) n : 4 <= n -> length rhs = n -> length d0 = n ->
  length l1 = n - 1 -> length u1 = n - 1 -> length l2 = n - 2 -> length u2 = n - 2 ->
  wp (pdma md l2 l1 d0 u1 u2 rhs) (fun z => length z = n).
Proof.
  intros Hn Lr Ld La Lb Lc Le. unfold pdma. rewrite Lr. wl.
  loop (pd_lens n (n - 1) (n - 2)).
  - unfold pd_lens; cbn [s_al s_be s_ze s_ga s_mu]. rewrite ?repeat_length in *. lia.
  - pd. wl. unfold pd_lens; cbn [s_al s_be s_ze s_ga s_mu]. lia.
  - pd. wl. loop (fun r : list T => length r = n); [wl; lia|lia].
Qed.
Lemma pdma2_len md (l4 l2 d0 u2 u4 : list A) (rhs : list T) n : 6 <= n -> length rhs = n -> length d0 = n ->
  length l2 = n - 2 -> length u2 = n - 2 -> length l4 = n - 4 -> length u4 = n - 4 ->
  wp (pdma2 md l4 l2 d0 u2 u4 rhs) (fun z => length z = n).
Proof.
  intros Hn Lr Ld La Lb Lc Le. unfold pdma2. rewrite Lr. wl.
  apply (wp_mono _ (pd_lens n (n - 2) (n - 4))).
  { unfold pdma2_head. wl. destruct (Nat.ltb_spec 2 (length u4)); wl; destruct (Nat.ltb_spec 3 (length u4)); wl;
      unfold pd_lens; cbn [s_al s_be s_ze s_ga s_mu]; rewrite ?repeat_length in *; lia. }
  intros s Hs. wl. apply (wp_mono _ (pd_lens n (n - 2) (n - 4))).
  { unfold pdma2_rows. rewrite Lr. wl. loop (pd_lens n (n - 2) (n - 4)).
    - auto.
    - clear s Hs. rename s0 into s. rename Hs0 into Hs. pd. wl. unfold pd_lens; cbn [s_al s_be s_ze s_ga s_mu]. lia.
    - clear s Hs. rename s0 into s. rename Hs0 into Hs. wl. apply (wp_mono _ (pd_lens n (n - 2) (n - 4))).
      { destruct (Nat.ltb_spec 3 (length l4)); [rewrite isub_ok by lia|]; wl; auto. pd. wl. unfold pd_lens; cbn [s_al s_be s_ze s_ga s_mu]. lia. }
      clear s Hs. intros s Hs. wl. apply (wp_mono _ (pd_lens n (n - 2) (n - 4))).
      { destruct (Nat.ltb_spec 2 (length l4)); [rewrite isub_ok by lia|]; wl; auto. pd. wl. unfold pd_lens; cbn [s_al s_be s_ze s_ga s_mu]. lia. }
      clear s Hs. intros s Hs. pd. wl. unfold pd_lens; cbn [s_al s_be s_ze s_ga s_mu]. lia. }
  clear s Hs. intros s Hs. unfold pdma2_back. rewrite Lr. pd. wl. loop (fun r : list T => length r = n); [wl; lia|lia].
Qed.

(** ** Constructors *)
Lemma fill_len (B : Type) (l : list B) (e : nat -> res B) :
  (forall i, i < length l -> wp (e i) (fun _ => True)) -> wp (fill l e) (fun l' => length l' = length l).
Proof.
  intros H. unfold fill. apply (wp_loop _ _ (fun l' : list B => length l' = length l)); auto.
  intros i s Hi Hs. apply in_range in Hi. apply wp_st_len. eapply wp_mono. apply H; lia. intros; split; lia.
Qed.
Definition st2_lens (m : nat) (h : st2 A) : Prop :=
  length (d2_diag h) = m /\ length (d2_low2 h) = m /\ length (d2_tdiag h) = m /\ length (d2_toff2 h) = m - 2.
Definition st3_lens (m wa wb : nat) (h : st3 A) : Prop :=
  length (d3_diag h) = m /\ length (d3_lowa h) = m /\ length (d3_lowb h) = m /\
  length (d3_fdiag h) = m /\ length (d3_foffa h) = m - wa /\ length (d3_foffb h) = m - wb.
Ltac fl := apply fill_len; intros ? ?; rewrite ?repeat_length in *; wl; auto.
Ltac fls := eapply wp_mono; [fl|]; intros ? ?; rewrite ?repeat_length in *; wl.
Lemma st2_new_len (diag low2 : list A) m : 2 <= m -> length diag = m -> length low2 = m -> wp (st2_new diag low2) (st2_lens m).
Proof.
  intros Hm Hd Hl. unfold st2_new, get_tdma_diagonals. rewrite Hd. wl. fls. fls. unfold st2_lens; cbn [d2_diag d2_low2 d2_tdiag d2_toff2 fst snd]. lia.
Qed.
Lemma st3_new_len (diag low1 low2 : list A) m : 2 <= m -> length diag = m -> length low1 = m -> length low2 = m -> wp (st3_new diag low1 low2) (st3_lens m 1 2).
Proof.
  intros Hm Hd Hl H2. unfold st3_new, get_fdma_diagonals. rewrite Hd. wl. fls. fls. fls.
  unfold st3_lens; cbn [d3_diag d3_lowa d3_lowb d3_fdiag d3_foffa d3_foffb fst snd]. lia.
Qed.
Lemma st4_new_len (diag low2 low4 : list A) m : 4 <= m -> length diag = m -> length low2 = m -> length low4 = m -> wp (st4_new diag low2 low4) (st3_lens m 2 4).
Proof.
  intros Hm Hd Hl H2. unfold st4_new, get_fdma_diagonals2. rewrite Hd. wl. fls. fls. fls.
  unfold st3_lens; cbn [d3_diag d3_lowa d3_lowb d3_fdiag d3_foffa d3_foffb fst snd]. lia.
Qed.
Definition st_lens (k : skind) (m : nat) (s : stencil A) : Prop :=
  match k, s with
  | KDirichlet, Dirichlet h | KNeumann, Neumann h => st2_lens m h
  | KDirichletNeumann, DirichletNeumann h => st3_lens m 1 2 h
  | KBiHarmonicA, BiHarmonicA h | KBiHarmonicB, BiHarmonicB h => st3_lens m 2 4 h
  | _, _ => False
  end.
Lemma stencil_new_len k n : smin k <= n -> wp (stencil_new (A := A) k n) (st_lens k (sdim k n)).
Proof.
  intros Hn. unfold stencil_new. destruct k; cbn [smin] in Hn; unfold get_m, sdim; cbn [sstep]; wl;
    repeat (eapply wp_mono; [fl|]; intros ? ?; rewrite ?repeat_length in *; wl);
    (eapply wp_mono; [first [apply (st2_new_len _ _ (n - 2)) | apply (st3_new_len _ _ _ (n - 2)) | apply (st4_new_len _ _ _ (n - 4))];
       rewrite ?repeat_length; lia|]); intros h Hh; wl; exact Hh.
Qed.
Lemma compo_new_len k n : smin k <= n -> exists s, compo_new (A := A) k n = Ok (mk_compo n (sdim k n) (mk_cheb n n) s) /\ st_lens k (sdim k n) s.
Proof.
  intros Hn. pose proof (stencil_new_len k n Hn) as W. apply wp_Ok in W as (s & E & H). exists s. split; auto.
  unfold compo_new. rewrite E. cbn [bind].
  assert (G : get_m k n = Ok (sdim k n)). { unfold get_m, sdim. destruct k; cbn [smin sstep] in *; rewrite usub_ok by lia; f_equal; lia. }
  rewrite G. cbn [bind]. unfold cheb_new. destruct (Nat.leb_spec 2 n); [reflexivity|]. destruct k; cbn [smin] in Hn; lia.
Qed.
Lemma stencil_new_panics k n : n < smin k -> stencil_new (A := A) k n = Panic.
Proof. intros Hn. destruct k; cbn [smin] in Hn; do 8 (destruct n as [|n]; [reflexivity || lia|]); lia. Qed.
Lemma compo_new_panics k n : n < smin k -> compo_new (A := A) k n = Panic.
Proof. intros. unfold compo_new. rewrite stencil_new_panics by auto. reflexivity. Qed.

(** ** Slice methods *)
Lemma grad_once_len m (out : list T) : 3 <= m -> length out = m -> wp (grad_once (A := A) m out) (fun z => length z = m).
Proof.
  intros Hm Lo. unfold grad_once. wl. loop (fun l : list T => length l = m); [wl; lia|]. wl.
  loop (fun l : list T => length l = m); [wl; lia|]. wl. lia.
Qed.
Lemma gradient_fnop n d : (3 <= n \/ d = 0) -> fnop (fun x y : list T => cheb_gradient (A := A) (mk_cheb n n) x y d) n n.
Proof.
  intros H. apply (fnop_fix _ (fun x => for_each (range 0 d) (fun _ out => grad_once (A := A) n out) x)).
  - intros x y Hx Hy. unfold cheb_gradient. cbn [c_m]. rewrite Hy, Nat.eqb_refl. cbn [assertb bind]. rewrite zip_write_full by congruence. auto.
  - intros x Hx. destruct H as [H| ->]; [|auto]. loop (fun l : list T => length l = n); auto. apply grad_once_len; auto.
Qed.
Lemma gradient_UB2 d (x y : list T) : 1 <= d -> length x = 2 -> length y = 2 -> cheb_gradient (A := A) (mk_cheb 2 2) x y d = UB.
Proof.
  intros Hd Hx Hy. unfold cheb_gradient. cbn [c_m]. rewrite Hy. cbn [Nat.eqb assertb bind]. rewrite zip_write_full by congruence.
  destruct d; [lia|]. destruct x as [|a [|b [|]]]; try discriminate Hx. reflexivity.
Qed.

(** entries of a vector under construction *)
Ltac we1 :=
  match goal with
  | |- wp (bind _ _) _ => apply wp_bind
  | |- wp (lift2 _ _ _) _ => apply wp_lift2
  | |- wp (rd _ _ _) _ => apply wp_rd; [ lnl | ]
  | |- wp (Ok _) _ => cbn [wp]
  | |- wp (st _ _ _ _) _ => apply wp_st
  | |- wp (usub _ _) _ => apply wp_usub; [ lnl | ]
  | |- wp (assertb (_ =? _)) _ => apply wp_assert; [ apply Nat.eqb_eq; lnl | ]
  | |- _ /\ (forall l', length l' = _ -> _) => split; [ lnl | let l := fresh "l" in let HL := fresh "HL" in let HE := fresh "HE" in
       let HF := fresh "HF" in intros l HL HE HF ]
  end.
Ltac we := repeat (we1; cbv beta).
Definition dot2_entry (h : st2 A) (n : nat) (v : list T) (i : nat) : T :=
  if i <? 2 then vmul v.[i] (d2_diag h).[i] else
  if i <? n - 2 then vadd (vmul v.[i] (d2_diag h).[i]) (vmul v.[i - 2] (d2_low2 h).[i - 2])
  else vmul v.[i - 2] (d2_low2 h).[i - 2].
Definition dot3_entry (h : st3 A) (n : nat) (v : list T) (i : nat) : T :=
  if i =? 0 then vmul v.[0] (d3_diag h).[0] else
  if i =? 1 then vadd (vmul v.[1] (d3_diag h).[1]) (vmul v.[0] (d3_lowa h).[0]) else
  if i <? n - 2 then vadd (vadd (vmul v.[i] (d3_diag h).[i]) (vmul v.[i - 1] (d3_lowa h).[i - 1])) (vmul v.[i - 2] (d3_lowb h).[i - 2]) else
  if i =? n - 2 then vadd (vmul v.[n - 3] (d3_lowa h).[n - 3]) (vmul v.[n - 4] (d3_lowb h).[n - 4])
  else vmul v.[n - 3] (d3_lowb h).[n - 3].
Ltac cases_lt := repeat match goal with
  | |- context [?a <? ?b] => destruct (Nat.ltb_spec a b); try lia
  | |- context [?a =? ?b] => destruct (Nat.eqb_spec a b); try lia end.
Lemma st2_dot_entries (h : st2 A) n (v u : list T) : 4 <= n -> st2_lens (n - 2) h -> length v = n - 2 -> length u = n ->
  wp (st2_dot h v u) (fun z => length z = n /\ forall i, i < n -> z.[i] = dot2_entry h n v i).
Proof.
  intros Hn (L1 & L2 & _) Hv Hu. unfold st2_dot. we. rewrite Hu. we.
  apply (wp_for_each_range 2 (n - 2) _ (fun i (w : list T) => length w = n /\ forall j, j < i -> w.[j] = dot2_entry h n v j)); [lia| | |].
  - split. lia. intros j Hj. unfold dot2_entry. cases_lt. assert (j = 0 \/ j = 1) as [-> | ->] by lia; rdx; auto.
  - intros i w Hi [Lw Ew]. we. split. lia. intros j Hj. destruct (Nat.eq_dec j i) as [->|D]; [|rewrite HF1 by auto; apply Ew; lia].
    rewrite HE1. unfold dot2_entry. cases_lt. auto.
  - intros w [Lw Ew]. we. split. lia. intros j Hj. destruct (Nat.eq_dec j (n - 1)) as [->|D1].
    { rewrite HE2. unfold dot2_entry. cases_lt. replace (n - 1 - 2) with (n - 3) by lia. auto. }
    rewrite HF2 by auto. destruct (Nat.eq_dec j (n - 2)) as [->|D2].
    { rewrite HE1. unfold dot2_entry. cases_lt. replace (n - 2 - 2) with (n - 4) by lia. auto. }
    rewrite HF1 by auto. apply Ew. lia.
Qed.
Lemma st2_dot_fnop (h : st2 A) n : 4 <= n -> st2_lens (n - 2) h -> fnop (fun v u : list T => st2_dot h v u) (n - 2) n.
Proof.
  intros Hn H. apply fnop_formula with (F := dot2_entry h n). intros v u Hv Hu. apply st2_dot_entries; auto.
Qed.
Lemma st3_dot_entries (h : st3 A) n (v u : list T) : 4 <= n -> st3_lens (n - 2) 1 2 h -> length v = n - 2 -> length u = n ->
  wp (st3_dot h v u) (fun z => length z = n /\ forall i, i < n -> z.[i] = dot3_entry h n v i).
Proof.
  intros Hn (L1 & L2 & L3 & _) Hv Hu. unfold st3_dot. we. rewrite Hu. we.
  apply (wp_for_each_range 2 (n - 2) _ (fun i (w : list T) => length w = n /\ forall j, j < i -> w.[j] = dot3_entry h n v j)); [lia| | |].
  - split. lia. intros j Hj. unfold dot3_entry. assert (j = 0 \/ j = 1) as [-> | ->] by lia; cbn [Nat.eqb]; rdx; auto.
  - intros i w Hi [Lw Ew]. we. split. lia. intros j Hj. destruct (Nat.eq_dec j i) as [->|D]; [|rewrite HF1 by auto; apply Ew; lia].
    rewrite HE1. unfold dot3_entry. cases_lt. auto.
  - intros w [Lw Ew]. we. split. lia. intros j Hj. destruct (Nat.eq_dec j (n - 1)) as [->|D1].
    { rewrite HE2. unfold dot3_entry. cases_lt. auto. }
    rewrite HF2 by auto. destruct (Nat.eq_dec j (n - 2)) as [->|D2].
    { rewrite HE1. unfold dot3_entry. cases_lt. auto. }
    rewrite HF1 by auto. apply Ew. lia.
Qed.
Lemma st3_dot_fnop (h : st3 A) n : 4 <= n -> st3_lens (n - 2) 1 2 h -> fnop (fun v u : list T => st3_dot h v u) (n - 2) n.
Proof.
  intros Hn H. apply fnop_formula with (F := dot3_entry h n). intros v u Hv Hu. apply st3_dot_entries; auto.
Qed.
(** helpers.rs:371-408 on right-sized slices: the access out of range *)
Lemma st4_dot_UB' (h : st3 A) n (v u : list T) : 8 <= n -> st3_lens (n - 4) 2 4 h -> length v = n - 4 -> length u = n -> st4_dot h v u = UB.
Proof.
  intros Hn (Ld & La & Lb & _) Lv Lu. unfold st4_dot.
  assert (ST : forall (w : list T) i (e : res T), wp e (fun _ => True) -> i < length w ->
     wp (st Unchecked w i e) (fun w' => length w' = length w)).
  { intros w i e He Hi. apply wp_st_len. eapply wp_mono; [exact He|]. intros. split; auto. }
  eapply UB_bind with (P := fun _ => True). { wl. exact I. } intros _ _.
  do 4 (eapply UB_bind; [apply ST; [wl; auto|lia]|]; cbv beta; intros ? ?).
  rewrite usub_ok by lia. cbn [bind].
  eapply UB_bind with (P := fun w : list T => length w = length u).
  { loop (fun w : list T => length w = length u); auto; try lia. eapply wp_mono. { apply ST; [wl; auto|lia]. } cbv beta. intros. lia. }
  cbv beta. intros w Hw. rewrite ?usub_ok by lia. cbn [bind].
  eapply UB_bind; [apply ST; [wl; auto|lia]|]; cbv beta; intros ? ?. rewrite ?usub_ok by lia. cbn [bind].
  eapply UB_bind; [apply ST; [wl; auto|lia]|]; cbv beta; intros ? ?. rewrite ?usub_ok by lia. cbn [bind].
  unfold st. rewrite (rd_oob Unchecked v) by lia. reflexivity.
Qed.

Lemma rhs_fill (v : list T) (e : nat -> res T) (f : nat -> T) : (forall i, i < length v -> e i = Ok (f i)) ->
  for_each (range 0 (length v)) (fun i v => st Unchecked v i (e i)) v = Ok (map f (seq 0 (length v))).
Proof.
  intros H. assert (W : wp (for_each (range 0 (length v)) (fun i v => st Unchecked v i (e i)) v)
     (fun v' => length v' = length v /\ forall i, i < length v -> v'.[i] = f i)).
  { apply (wp_for_each_range 0 (length v) _ (fun i l' => length l' = length v /\ forall j, j < i -> l'.[j] = f j)).
    - lia.
    - split; auto. intros; lia.
    - intros i l' Hi [Hl HE]. rewrite H by lia. unfold st. cbn [bind].
      apply wp_wr; [lia|]. intros l'' Hl'' E'' F''. split; [lia|].
      intros j Hj. destruct (Nat.eq_dec j i) as [->|]; auto. rewrite F'' by auto. apply HE. lia.
    - intros l' [Hl HE]. split; auto. }
  apply wp_Ok in W as (v' & -> & L & E). f_equal. apply list_ext. rewrite map_length, seq_length; auto.
  intros i Hi. rewrite at_map_seq by lia. apply E. lia.
Qed.
Definition solve_rhs (s : stencil A) (m : nat) (u : list T) : list T :=
  match s with
  | Dirichlet h | Neumann h => map (fun i => vadd (vmul u.[i] (d2_diag h).[i]) (vmul u.[i + 2] (d2_low2 h).[i])) (seq 0 m)
  | DirichletNeumann h => map (fun i => vadd (vadd (vmul u.[i] (d3_diag h).[i]) (vmul u.[i + 1] (d3_lowa h).[i])) (vmul u.[i + 2] (d3_lowb h).[i])) (seq 0 m)
  | BiHarmonicA h | BiHarmonicB h =>
      map (fun i => vadd (vadd (vmul u.[i] (d3_diag h).[i]) (vmul u.[i + 2] (d3_lowa h).[i])) (vmul u.[i + 4] (d3_lowb h).[i])) (seq 0 m)
  end.
Definition solve_band (s : stencil A) (r : list T) : res (list T) :=
  match s with
  | Dirichlet h | Neumann h => tdma Unchecked (d2_toff2 h) (d2_tdiag h) (d2_toff2 h) r
  | DirichletNeumann h => pdma Unchecked (d3_foffb h) (d3_foffa h) (d3_fdiag h) (d3_foffa h) (d3_foffb h) r
  | BiHarmonicA h | BiHarmonicB h => pdma2 Unchecked (d3_foffb h) (d3_foffa h) (d3_fdiag h) (d3_foffa h) (d3_foffb h) r
  end.
Lemma stencil_solve_eq k n s (u v : list T) : smin k <= n -> st_lens k (sdim k n) s -> length u = n -> length v = sdim k n ->
  stencil_solve s u v = solve_band s (solve_rhs s (sdim k n) u).
Proof.
  intros Hn H Lu Lv. pose proof (sdim_eq k n Hn) as En. unfold stencil_solve, solve_band, solve_rhs. rewrite <- Lv in *.
  destruct k, s as [h|h|h|h|h]; cbn [st_lens] in H; try contradiction; cbn [sstep smin] in *.
  1,2: destruct H as (L1 & L2 & _); unfold st2_solve; erewrite rhs_fill; [reflexivity|]; intros i Hi; rdok; reflexivity.
  1: destruct H as (L1 & L2 & L3 & _); unfold st3_solve; erewrite rhs_fill; [reflexivity|]; intros i Hi; rdok; reflexivity.
  all: destruct H as (L1 & L2 & L3 & _); unfold st4_solve; erewrite rhs_fill; [reflexivity|]; intros i Hi; rdok; reflexivity.
Qed.
Lemma solve_rhs_len s m u : length (solve_rhs s m u) = m.
Proof. unfold solve_rhs. destruct s; rewrite map_length, seq_length; auto. Qed.
Lemma solve_fnop k n s : ssolve k <= n -> st_lens k (sdim k n) s -> fnop (fun u v : list T => stencil_solve s u v) n (sdim k n).
Proof.
  intros Hn H. assert (Hs : smin k <= n) by (destruct k; cbn [smin ssolve] in *; lia).
  apply (fnop_fix _ (fun u => solve_band s (solve_rhs s (sdim k n) u))).
  - intros u v Lu Lv. apply (stencil_solve_eq k n); auto.
  - intros u Lu. pose proof (solve_rhs_len s (sdim k n) u) as Lr. set (r := solve_rhs s (sdim k n) u) in *. unfold solve_band.
    pose proof (sdim_eq k n Hs) as En.
    destruct k, s as [h|h|h|h|h]; cbn [st_lens] in H; try contradiction; cbn [sstep smin ssolve] in *.
    1,2: destruct H as (L1 & L2 & L3 & L4); apply tdma_len; lia.
    1: destruct H as (L1 & L2 & L3 & L4 & L5 & L6); apply pdma_len; lia.
    all: destruct H as (L1 & L2 & L3 & L4 & L5 & L6); apply pdma2_len; lia.
Qed.
Lemma solve_panics k n s (u v : list T) : smin k <= n -> n < ssolve k -> st_lens k (sdim k n) s -> length u = n -> length v = sdim k n ->
  stencil_solve s u v = Panic.
Proof.
  intros Hn Hs H Lu Lv. rewrite (stencil_solve_eq k n) by auto. pose proof (solve_rhs_len s (sdim k n) u) as Lr. pose proof (sdim_eq k n Hn) as En.
  unfold solve_band. destruct k, s as [h|h|h|h|h]; cbn [st_lens] in H; try contradiction; cbn [sstep smin ssolve] in *.
  1,2: apply (small_sizes_panic A T _ _ Unchecked [] _ [] _ [] _ []); lia.
  1: apply (small_sizes_panic A T _ _ Unchecked [] _ _ _ _ _ []); lia.
  all: apply (small_sizes_panic A T _ _ Unchecked _ _ [] _ [] _ _); lia.
Qed.
Lemma dot_fnop k n s : biharmonic k = false -> smin k <= n -> st_lens k (sdim k n) s -> fnop (fun v u : list T => stencil_dot s v u) (sdim k n) n.
Proof.
  intros Hb Hn H. unfold stencil_dot. unfold sdim in *.
  destruct k, s as [h|h|h|h|h]; cbn [st_lens biharmonic] in *; try contradiction; try discriminate; cbn [sstep smin] in *.
  1,2: apply st2_dot_fnop; auto; lia. apply st3_dot_fnop; auto; lia.
Qed.
Lemma dot_UB k n s (v u : list T) : biharmonic k = true -> smin k <= n -> st_lens k (sdim k n) s -> length v = sdim k n -> length u = n ->
  stencil_dot s v u = UB.
Proof.
  intros Hb Hn H Lv Lu. unfold stencil_dot. unfold sdim in *.
  destruct k, s as [h|h|h|h|h]; cbn [st_lens biharmonic] in *; try contradiction; try discriminate; cbn [sstep smin] in *;
    apply (st4_dot_UB' h n); auto; lia.
Qed.
End Generic.
