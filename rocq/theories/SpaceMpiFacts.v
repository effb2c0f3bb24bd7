(** One 1-D operation along the axis a pencil owns completely is the pencil of
    the operation on the global array. *)
From Coq Require Import List Arith Lia Bool ZArith Reals.
From Verif Require Import Base Num Cheb NdArray NdArrayFacts AxisFacts Bases BaseLin PropAxis SpaceFacts MpiSem Decomp MpiSpec DistFacts TabFacts DecompFacts MpiRuns PropMpi.
Import ListNotations.
Local Open Scope nat_scope.

Section Stage.
Context {T1 T2 : Type} {V1 : Vec R T1} {V2 : Vec R T2} {d1 : Dflt T1} {d2 : Dflt T2}.
Variables (f : list T1 -> list T2 -> res (list T2)) (l1 l2 p : nat) (zo : zip_order).
Hypothesis L : linop f l1 l2.
Hypothesis Hz : zip_ok zo.
Hypothesis Hp : 1 <= p.

Lemma line0 {T} {dT : Dflt T} (a : arr T) n0 n1 j : shp a = [n0; n1] -> line a [] [j] = map (fun k => get a [k; j]) (seq 0 n0).
Proof. intros H. unfold line. rewrite H. reflexivity. Qed.
Lemma line1 {T} {dT : Dflt T} (a : arr T) n0 n1 i : shp a = [n0; n1] -> line a [i] [] = map (fun k => get a [i; k]) (seq 0 n1).
Proof. intros H. unfold line. rewrite H. reflexivity. Qed.
Lemma valid1 n j : j < n -> valid [n] [j].
Proof. intros H. repeat constructor; auto. Qed.

Lemma map_seq_inj {X} (u v : nat -> X) n : map u (seq 0 n) = map v (seq 0 n) -> forall i, i < n -> u i = v i.
Proof.
  intros H i Hi. assert (K : nth_error (map u (seq 0 n)) i = nth_error (map v (seq 0 n)) i) by congruence.
  rewrite !nth_error_map, !(nth_error_nth' _ 0), seq_nth in K by (rewrite ?seq_length; auto). cbn in K. congruence.
Qed.

Lemma x_stage n1 (g : arr T1) (h : arr T2) r : shp g = [l1; n1] -> axis_op f l2 0 g h -> r < p ->
  axop f l1 l2 zo (xpen l1 n1 p g r true) 0 = Ok (xpen l2 n1 p h r true).
Proof.
  intros Sg (Sh & Th & Wh & H) Hr. rewrite Sg in Sh. cbn [upd] in Sh.
  set (a := xpen l1 n1 p g r true). assert (Sa : shp a = [l1; blk_len n1 p r]) by reflexivity.
  destruct (axop_runs f l1 l2 zo a 0 L Hz eq_refl) as (b & E & Sb & Tb & Wb & Hb); [reflexivity|].
  rewrite E. f_equal. rewrite Sa in Sb. cbn [upd] in Sb.
  assert (X : x_block l2 n1 p r h b).
  { split; auto. split; auto. intros i j Hi Hj. pose proof (blk_end_le n1 p Hp r Hr).
    assert (La : line a [] [j] = line g [] [blk_lo n1 p r + j]).
    { rewrite (line0 a _ _ _ Sa), (line0 g _ _ _ Sg). apply map_ext_in. intros k Hk. apply in_seq in Hk.
      apply (proj2 (proj2 (xpen_block l1 n1 p g r true))); lia. }
    specialize (Hb [] [j] eq_refl). rewrite Sa in Hb. specialize (Hb (valid1 _ _ Hj) (repeat dflt l2) (repeat_length _ _)).
    specialize (H [] [blk_lo n1 p r + j] eq_refl). rewrite Sg in H. specialize (H (valid1 n1 (blk_lo n1 p r + j) ltac:(lia)) (repeat dflt l2) (repeat_length _ _)).
    rewrite La, H in Hb. injection Hb as Hb. rewrite (line0 b _ _ _ Sb), (line0 h _ _ _ Sh) in Hb. symmetry. apply (map_seq_inj _ _ _ Hb); auto. }
  apply x_block_xpen in X. rewrite Tb in X. exact X.
Qed.
Lemma y_stage n0 (g : arr T1) (h : arr T2) r : shp g = [n0; l1] -> axis_op f l2 1 g h -> r < p ->
  axop f l1 l2 zo (ypen n0 l1 p g r true) 1 = Ok (ypen n0 l2 p h r true).
Proof.
  intros Sg (Sh & Th & Wh & H) Hr. rewrite Sg in Sh. cbn [upd] in Sh.
  set (a := ypen n0 l1 p g r true). assert (Sa : shp a = [blk_len n0 p r; l1]) by reflexivity.
  destruct (axop_runs f l1 l2 zo a 1 L Hz eq_refl) as (b & E & Sb & Tb & Wb & Hb); [reflexivity|].
  rewrite E. f_equal. rewrite Sa in Sb. cbn [upd] in Sb.
  assert (X : y_block n0 l2 p r h b).
  { split; auto. split; auto. intros i j Hi Hj. pose proof (blk_end_le n0 p Hp r Hr).
    assert (La : line a [i] [] = line g [blk_lo n0 p r + i] []).
    { rewrite (line1 a _ _ _ Sa), (line1 g _ _ _ Sg). apply map_ext_in. intros k Hk. apply in_seq in Hk.
      apply (proj2 (proj2 (ypen_block n0 l1 p g r true))); lia. }
    specialize (Hb [i] [] eq_refl). rewrite Sa in Hb. specialize (Hb (valid1 _ _ Hi) (repeat dflt l2) (repeat_length _ _)).
    specialize (H [blk_lo n0 p r + i] [] eq_refl). rewrite Sg in H. specialize (H (valid1 n0 (blk_lo n0 p r + i) ltac:(lia)) (repeat dflt l2) (repeat_length _ _)).
    rewrite La, H in Hb. injection Hb as Hb. rewrite (line1 b _ _ _ Sb), (line1 h _ _ _ Sh) in Hb. symmetry. apply (map_seq_inj _ _ _ Hb); auto. }
  apply y_block_ypen in X. rewrite Tb in X. exact X.
Qed.
End Stage.
