(** Facts about the bases over any arithmetic and any transform libraries. *)
From Coq Require Import List Arith Lia Bool ZArith.
From Verif Require Import Base Num Linalg LinalgProofs LinalgModes Stencils StencilProofs Cheb ChebGrad Compo CompoProofs Fourier Bases ExtLib AnyArith.
Import ListNotations.
Local Open Scope nat_scope.

Section Documented.
Context {A : Type} {N : Num A} {Tr : Trig A}.
Lemma documented_r2r {T} {V : Vec A T} b : r2r_ops_x documented (T := T) b = r2r_ops b.
Proof. destruct b; reflexivity. Qed.
Lemma documented_r2c {Z0 : EqZ A} f : r2c_ops_x documented f = r2c_ops f.
Proof. reflexivity. Qed.
Lemma documented_c2c f : c2c_ops_x documented f = c2c_ops f.
Proof. reflexivity. Qed.
Lemma documented_ok : ext_ok (documented (A := A)).
Proof.
  unfold ext_ok, documented. cbn [x_dct1 x_fft x_r2c x_c2r]. repeat split; intros.
  - unfold dct1. rewrite map_length, seq_length. auto.
  - unfold fft. rewrite map_length, seq_length. auto.
  - rewrite firstn_length. unfold fft. rewrite map_length, seq_length. assert (n / 2 < n) by (apply Nat.div_lt; lia). lia.
  - rewrite map_length. unfold fft. rewrite map_length, seq_length. auto.
Qed.
End Documented.

Section Facts.
Context {A : Type} {N : Num A} (E : ext A) (HE : ext_ok E).

Lemma scale_at_len (x : list A) i e n : i < n -> length x = n -> wp (scale_at x i e) (fun z => length z = n).
Proof. intros Hi Lx. unfold scale_at. wl. lia. Qed.
Lemma fnop_cheb_forward n : 2 <= n -> fnop (cheb_forward_x E (mk_cheb n n)) n n.
Proof.
  intros Hn. destruct HE as (E1 & _).
  apply (fnop_fix _ (fun x => cheb_forward_x E (mk_cheb n n) x (repeat n0 n))).
  - intros x y Hx Hy. unfold cheb_forward_x. rewrite Hx, Hy, repeat_length. unfold cheb_len_phys. cbn [c_n]. rewrite Nat.eqb_refl.
    cbn [assertb bind]. rewrite usub_ok by lia. cbn [bind]. rewrite !zip_write_full; auto; rewrite ?repeat_length, map_length, rev_length; congruence.
  - intros x Hx. unfold cheb_forward_x. unfold cheb_len_phys. cbn [c_n]. wl.
    unfold process_dct1_x. rewrite zip_write_full by (rewrite repeat_length, map_length, rev_length; auto).
    apply wp_bind. apply wp_assert. { apply Nat.eqb_eq. rewrite map_length, rev_length. auto. } cbn [wp].
    apply wp_bind. eapply wp_mono. apply (scale_at_len _ _ _ n); try lia. apply E1. rewrite map_length, rev_length. auto.
    intros z Hz. cbv beta in Hz. apply scale_at_len; auto; lia.
Qed.
Lemma fnop_cheb_backward n : 2 <= n -> fnop (cheb_backward_x E (mk_cheb n n)) n n.
Proof.
  intros Hn. destruct HE as (E1 & _).
  apply (fnop_fix _ (fun x => cheb_backward_x E (mk_cheb n n) x (repeat n0 n))).
  - intros x y Hx Hy. unfold cheb_backward_x. rewrite Hx, Hy, repeat_length. unfold cheb_len_spec. cbn [c_n c_m]. rewrite Nat.eqb_refl.
    cbn [assertb bind]. rewrite !zip_write_full; auto; rewrite ?repeat_length, map_length, combine_length, seq_length; lia.
  - intros x Hx. unfold cheb_backward_x. unfold cheb_len_spec. cbn [c_n c_m]. wl.
    rewrite zip_write_full by (rewrite repeat_length, map_length, combine_length, seq_length; lia).
    eapply wp_mono. apply (scale_at_len _ _ _ n). lia. rewrite map_length, combine_length, seq_length; lia.
    intros z Hz. cbv beta in Hz. wl. eapply wp_mono. apply (scale_at_len _ _ _ n); auto; lia. intros z' Hz'. cbv beta in Hz'. unfold process_dct1_x. wl. apply E1. auto.
Qed.

Lemma fnop_compo_forward k n s : ssolve k <= n -> st_lens k (sdim k n) s -> fnop (compo_forward_x E (mk_compo n (sdim k n) (mk_cheb n n) s)) n (sdim k n).
Proof.
  intros Hn H. apply (fnop_comp (cheb_forward_x E (mk_cheb n n)) (stencil_solve (V := vec_self) s) n n).
  - apply fnop_cheb_forward. destruct k; cbn in Hn; lia.
  - apply (solve_fnop k); auto.
  - apply repeat_length.
Qed.
Lemma fnop_compo_backward k n s : biharmonic k = false -> smin k <= n -> st_lens k (sdim k n) s ->
  fnop (compo_backward_x E (mk_compo n (sdim k n) (mk_cheb n n) s)) (sdim k n) n.
Proof.
  intros Hb Hn H. apply (fnop_comp (stencil_dot (V := vec_self) s) (cheb_backward_x E (mk_cheb n n)) _ n n).
  - apply (dot_fnop k); auto.
  - apply fnop_cheb_backward. destruct k; cbn in Hn; lia.
  - apply repeat_length.
Qed.

Lemma mul_at_len (out : list (cplx A)) i k n : i < n -> length out = n -> wp (mul_at out i k) (fun z => length z = n).
Proof. intros Hi L. unfold mul_at. wl1. wl1. apply wp_wr; [lia|]. intros; lia. Qed.
Lemma zero_im_len (c : list (cplx A)) i n : i < n -> length c = n -> wp (zero_im c i) (fun z => length z = n).
Proof. intros Hi L. unfold zero_im. wl1. wl1. apply wp_wr; [lia|]. intros; lia. Qed.
Lemma fnop_r2c_gradient n d : fnop (fun x y => r2c_gradient (A := A) (mk_r2c n (n / 2 + 1)) x y d) (n / 2 + 1) (n / 2 + 1).
Proof.
  set (m := n / 2 + 1).
  apply (fnop_fix _ (fun x => for_each (range 0 d) (fun _ out => for_each (range 0 (length out)) (fun k out => mul_at out k (ik k)) out) x)).
  - intros x y Hx Hy. unfold r2c_gradient, r2c_len_spec. cbn [r_m]. rewrite Hx, Hy, Nat.eqb_refl. cbn [assertb bind]. rewrite zip_write_full by congruence. reflexivity.
  - intros x Hx. loop (fun l : list (cplx A) => length l = m); auto. rewrite Hs. loop (fun l : list (cplx A) => length l = m); auto.
    apply mul_at_len; lia.
Qed.
Lemma fnop_c2c_gradient n d : 1 <= n -> fnop (fun x y => c2c_gradient (A := A) (mk_c2c n n) x y d) n n.
Proof.
  intros Hn. apply (fnop_fix _ (fun x => for_each (range 0 d) (fun _ out => c2c_grad_once n out) x)).
  - intros x y Hx Hy. unfold c2c_gradient, c2c_len_spec. cbn [cc_m]. rewrite Hx, Hy, Nat.eqb_refl. cbn [assertb bind]. rewrite usub_ok by lia.
    cbn [bind]. rewrite zip_write_full by congruence. reflexivity.
  - intros x Hx. loop (fun l : list (cplx A) => length l = n); auto. unfold c2c_grad_once. wl. rewrite Hs.
    loop (fun l : list (cplx A) => length l = n); [apply mul_at_len; lia|]. rewrite Hs0.
    apply (wp_loop _ _ (fun l : list (cplx A) => length l = n)); auto. intros j l Hj Hl. apply in_range in Hj. rewrite Hl. apply mul_at_len; lia.
Qed.
Lemma fnop_r2c_forward n : 1 <= n -> fnop (r2c_forward_x E (mk_r2c n (n / 2 + 1))) n (n / 2 + 1).
Proof.
  intros Hn. destruct HE as (_ & _ & E3 & _). exists (fun x => x_r2c E n x). intros x y Hx Hy. split; [|apply E3; auto].
  unfold r2c_forward_x, r2c_len_phys, r2c_len_spec, process_r2c_x. cbn [r_n r_m]. rewrite zip_write_full by (rewrite repeat_length; auto).
  rewrite Hx, Hy, !Nat.eqb_refl. reflexivity.
Qed.
Lemma fnop_c2c_forward n : 1 <= n -> fnop (c2c_forward_x E (mk_c2c n n)) n n.
Proof.
  intros Hn. destruct HE as (_ & E2 & _). exists (fun x => x_fft E false n x). intros x y Hx Hy. split; [|apply E2; auto].
  unfold c2c_forward_x, c2c_len_phys, c2c_len_spec, process_fft_x. cbn [cc_n cc_m]. rewrite zip_write_full by congruence.
  rewrite Hx, Hy, !Nat.eqb_refl. reflexivity.
Qed.
Lemma fnop_c2c_backward n : 1 <= n -> fnop (c2c_backward_x E (mk_c2c n n)) n n.
Proof.
  intros Hn. destruct HE as (_ & E2 & _).
  exists (fun x => x_fft E true n (map (fun b => (nmul (ndiv n1 (nofN n)) (fst b), nmul (ndiv n1 (nofN n)) (snd b))) x)).
  intros x y Hx Hy. split; [|apply E2; rewrite map_length; auto].
  unfold c2c_backward_x, c2c_len_phys, c2c_len_spec, process_fft_x. cbn [cc_n cc_m]. rewrite zip_write_full by (etransitivity; [apply map_length|etransitivity; [exact Hx|symmetry; exact Hy]]).
  rewrite map_length, Hx, Hy, !Nat.eqb_refl. replace (@length (A * A) x =? n) with true by (symmetry; apply Nat.eqb_eq; exact Hx). reflexivity.
Qed.
Lemma c2r_tail {Z0 : EqZ A} n (c : list (cplx A)) (out : list A) : is0 n0 = true -> 1 <= n -> length c = n / 2 + 1 -> length out = n ->
  wp (let* c := zero_im c 0 in
      let* c := (if n mod 2 =? 0 then let* m1 := usub (n / 2 + 1) 1 in zero_im c m1 else Ok c) in
      process_c2r_x E n c out) (fun z => length z = n).
Proof.
  intros HZ Hn Lc Lo. destruct HE as (_ & _ & _ & E4).
  wl1. apply (wp_mono _ (fun z : list (cplx A) => length z = n / 2 + 1 /\ snd z.[0] = n0)).
  { unfold zero_im. wl1. wl1. apply wp_wr; [lia|]. intros l' L1 E1 _. rewrite E1. split; [lia|auto]. }
  clear c Lc. intros c [Lc Z]. wl1. apply (wp_mono _ (fun z : list (cplx A) => length z = n / 2 + 1 /\ snd z.[0] = n0 /\ (n mod 2 = 0 -> snd z.[n / 2] = n0))).
  { destruct (Nat.eqb_spec (n mod 2) 0) as [Ev|Ev]; [|cbn [wp]; repeat split; auto; lia].
    wl. unfold zero_im. wl1. wl1. apply wp_wr; [lia|]. intros l' L1 E1 F1. replace (n / 2 + 1 - 1) with (n / 2) in * by lia.
    split; [lia|]. split; [|rewrite E1; auto]. destruct (Nat.eq_dec (n / 2) 0) as [Z2|D2]. rewrite Z2 in E1. rewrite E1; auto. rewrite F1 by auto; auto. }
  intros z (Lz & Z1 & Z2). unfold process_c2r_x. apply wp_bind. apply wp_assert. { apply Nat.eqb_eq. auto. } apply wp_bind. apply wp_assert. { apply Nat.eqb_eq. auto. }
  apply wp_bind. rewrite Z1. apply wp_assert; [exact HZ|]. apply wp_bind.
  destruct (Nat.eqb_spec (n mod 2) 0) as [Ev|Ev]; [rewrite (Z2 Ev); apply wp_assert; [exact HZ|]|cbn [wp]]; apply E4; auto.
Qed.
Lemma fnop_r2c_backward {Z0 : EqZ A} n : is0 n0 = true -> 1 <= n -> fnop (r2c_backward_x E (mk_r2c n (n / 2 + 1))) (n / 2 + 1) n.
Proof.
  intros HZ Hn. set (m := n / 2 + 1).
  apply (fnop_fix _ (fun x => r2c_backward_x E (mk_r2c n m) x (repeat n0 n))).
  - intros x y Hx Hy. unfold r2c_backward_x, process_c2r_x, r2c_len_phys, r2c_len_spec. cbn [r_n r_m]. rewrite Hx, Hy, repeat_length, !Nat.eqb_refl. reflexivity.
  - intros x Hx. unfold r2c_backward_x, r2c_len_phys, r2c_len_spec. cbn [r_n r_m].
    apply wp_bind. apply wp_assert. { apply Nat.eqb_eq; auto. } apply wp_bind. apply wp_assert. { apply Nat.eqb_eq. apply repeat_length. }
    rewrite zip_write_full by (rewrite repeat_length, map_length; auto).
    apply c2r_tail; auto. etransitivity; [apply map_length|exact Hx]. apply repeat_length.
Qed.
End Facts.
