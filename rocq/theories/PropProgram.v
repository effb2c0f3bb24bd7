(** C70: a user's program of any length run on p ranks with Space2Mpi behaves
    like the same program run serially with Space2. *)
From Coq Require Import List Arith Lia Bool ZArith Reals FunctionalExtensionality.
From Verif Require Import Base Num Linalg Stencils Cheb Compo CompoProofs Fourier FourierF64 NdArray NdArrayFacts AxisFacts Bases BaseLin LibBase AxisProps PropAxis Space
  SpaceFacts SpaceBases SpaceStages PropSpace PropSpace4 MpiSem Decomp MpiSpec DistFacts TabFacts DecompFacts DistNew MpiRuns PropMpi PropMpi2 SpaceMpi PropHandler
  SpaceMpiFacts PropSpaceMpi ExtLib AnyArith ExtFacts AnyBase PropAny PropAny2 PropAny3 MpiMix MpiProgram.
Import ListNotations.
Local Open Scope nat_scope.

(** ** One call *)
Section Calls.
Context {A : Type} {N : Num A} {Z0 : EqZ A} (EX : ext A) {P I S : Type} {dP : Dflt P} {dI : Dflt I} {dS : Dflt S}.
Hypothesis HE : ext_ok EX.
Hypothesis HZ : is0 (n0 (A := A)) = true.
Variables (b0 : base_ops I S S) (b1 : base_ops P I S).
Hypothesis U0 : any_usable EX I S S b0.
Hypothesis U1 : any_usable EX P I S b1.
Variables (bm : bmode) (p : nat).
Notation sp := (mk_space2 b0 b1).
Hypothesis Hd : distributable sp p.
Variable smf : nat -> space2mpi P I S.
Hypothesis SM : forall r, r < p -> sm_space (smf r) = sp /\
  forall e0 e1, In e0 [len_phys b0; len_spec b0; len_orth b0] -> In e1 [len_phys b1; len_spec b1; len_orth b1] -> get_dcp (smf r) [e0; e1] = Ok (dcp e0 e1 p r).
Variables (zs : zip_order) (zo : nat -> zip_order).
Hypothesis Hzs : zip_ok zs.
Hypothesis Hz : forall r, zip_ok (zo r).

Lemma xshape e0 e1 (T : Type) (dT : Dflt T) (g : arr T) r : proper [e0; blk_len e1 p r] (xpen e0 e1 p g r true).
Proof. destruct (xpen_shape e0 e1 p g r true). split; [|split]; auto. Qed.
Lemma yshape e0 e1 (T : Type) (dT : Dflt T) (g : arr T) r : proper [blk_len e0 p r; e1] (ypen e0 e1 p g r true).
Proof. destruct (ypen_shape e0 e1 p g r true). split; [|split]; auto. Qed.
Lemma xprop e0 e1 (T : Type) (dT : Dflt T) (g : arr T) a : x_pencils_of [e0; e1] p g a -> forall r, r < p -> proper [e0; blk_len e1 p r] (a r).
Proof. intros H r Hr. rewrite (inx p e0 e1 g a H r Hr). apply xshape. Qed.
Lemma yprop e0 e1 (T : Type) (dT : Dflt T) (g : arr T) a : y_pencils_of [e0; e1] p g a -> forall r, r < p -> proper [blk_len e0 p r; e1] (a r).
Proof. intros H r Hr. rewrite (iny p e0 e1 g a H r Hr). apply yshape. Qed.

Lemma forward_call ip g o ins outs o' : proper (s2_shape_physical sp) g -> proper (s2_shape_spectral sp) o ->
  y_pencils_of (s2_shape_physical sp) p g ins -> x_pencils_of (s2_shape_spectral sp) p o' outs ->
  exists h res, (if ip : bool then s2_forward_inplace zs sp g o else s2_forward zs sp g) = Ok h /\ proper (s2_shape_spectral sp) h /\
    x_pencils_of (s2_shape_spectral sp) p h res /\
    brun p (fun r => mid (if ip then forward_inplace_mpi bm (zo r) (smf r) (ins r) (outs r) else forward_mpi bm (zo r) (smf r) (ins r)) : mprog (mix P I S) (arr S)) res.
Proof.
  intros Hg Ho Hin Hout. pose (VP := deg dP : Vec R P). pose (VI := deg dI : Vec R I). pose (VS := deg dS : Vec R S).
  destruct (any_facts EX HE HZ I S S b0 dI dS dS U0) as (F0 & B0 & O0 & Q0). destruct (any_facts EX HE HZ P I S b1 dP dI dS U1) as (F1 & B1 & O1 & Q1).
  destruct (C53_space2_applies_each_base_along_its_axis A N Z0 EX HE HZ P I S S b0 b1 U0 U1 dP dI dS dS zs Hzs) as (K & _).
  destruct (K g o Hg Ho) as (m & h & E' & E & Ph & A1 & A0).
  exists h, (fun r => xpen (len_spec b0) (len_spec b1) p h r true). split; [destruct ip; auto|]. split; auto. split. apply (outx p (len_spec b0) (len_spec b1) h).
  assert (F : p <= len_phys b0 /\ p <= len_spec b1 /\ pencils_fit (len_phys b0) (len_spec b1) p) by (apply (any_dist_orth EX b0 b1 U0 U1 p Hd); cbn; auto).
  assert (Sg : shp g = [len_phys b0; len_phys b1]) by apply Hg.
  apply (brun_via of_mid get_mid (fun x => eq_refl)). destruct ip.
  - eapply brun_ext. apply (forward_run b0 b1 bm p Hd zo Hz _ _ _ _ _ _ g m h (fun r x => forward_inplace (zo r) b0 x (outs r) 0) F1 F0 Sg A1 A0 F).
    + intros r x Hr (Sx & _ & _). apply (fin_inplace (forward_slice b0) (len_phys b0) (len_spec b0) (zo r) x (outs r) 0 [len_spec b0; blk_len (len_spec b1) p r] F0 (Hz r)); [rewrite Sx; cbn; lia|apply (xprop _ _ _ _ _ _ Hout r Hr)|rewrite Sx; reflexivity].
    + intros r Hr. destruct (SM r Hr) as (Esp & Lk). unfold forward_inplace_mpi. rewrite Esp. cbn [s2_base0 s2_base1]. rewrite Lk by (cbn; auto). rewrite (iny p _ _ g ins Hin r Hr). reflexivity.
  - eapply brun_ext. apply (forward_run b0 b1 bm p Hd zo Hz _ _ _ _ _ _ g m h (fun r x => forward (zo r) b0 x 0) F1 F0 Sg A1 A0 F). intros r x Hr Hx. reflexivity.
    intros r Hr. destruct (SM r Hr) as (Esp & Lk). unfold forward_mpi. rewrite Esp. cbn [s2_base0 s2_base1]. rewrite Lk by (cbn; auto). rewrite (iny p _ _ g ins Hin r Hr). reflexivity.
Qed.
Lemma backward_call ip g o ins outs o' : proper (s2_shape_spectral sp) g -> proper (s2_shape_physical sp) o ->
  x_pencils_of (s2_shape_spectral sp) p g ins -> y_pencils_of (s2_shape_physical sp) p o' outs ->
  exists h res, (if ip : bool then s2_backward_inplace zs sp g o else s2_backward zs sp g) = Ok h /\ proper (s2_shape_physical sp) h /\
    y_pencils_of (s2_shape_physical sp) p h res /\
    brun p (fun r => mid (if ip then backward_inplace_mpi bm (zo r) (smf r) (ins r) (outs r) else backward_mpi bm (zo r) (smf r) (ins r)) : mprog (mix P I S) (arr P)) res.
Proof.
  intros Hg Ho Hin Hout. pose (VP := deg dP : Vec R P). pose (VI := deg dI : Vec R I). pose (VS := deg dS : Vec R S).
  destruct (any_facts EX HE HZ I S S b0 dI dS dS U0) as (F0 & B0 & O0 & Q0). destruct (any_facts EX HE HZ P I S b1 dP dI dS U1) as (F1 & B1 & O1 & Q1).
  destruct (C53_space2_applies_each_base_along_its_axis A N Z0 EX HE HZ P I S S b0 b1 U0 U1 dP dI dS dS zs Hzs) as (_ & K & _).
  destruct (K g o Hg Ho) as (m & h & E' & E & Ph & A0 & A1).
  exists h, (fun r => ypen (len_phys b0) (len_phys b1) p h r true). split; [destruct ip; auto|]. split; auto. split. apply (outy p (len_phys b0) (len_phys b1) h).
  assert (F : p <= len_phys b0 /\ p <= len_spec b1 /\ pencils_fit (len_phys b0) (len_spec b1) p) by (apply (any_dist_orth EX b0 b1 U0 U1 p Hd); cbn; auto).
  assert (Sg : shp g = [len_spec b0; len_spec b1]) by apply Hg.
  apply (brun_via of_mid get_mid (fun x => eq_refl)). destruct ip.
  - eapply brun_ext. apply (backward_run b0 b1 bm p Hd zo Hz _ _ _ _ _ _ g m h (fun r x => backward_inplace (zo r) b1 x (outs r) 1) B0 B1 Sg A0 A1 F).
    + intros r x Hr (Sx & _ & _). apply (fin_inplace (backward_slice b1) (len_spec b1) (len_phys b1) (zo r) x (outs r) 1 [blk_len (len_phys b0) p r; len_phys b1] B1 (Hz r)); [rewrite Sx; cbn; lia|apply (yprop _ _ _ _ _ _ Hout r Hr)|rewrite Sx; reflexivity].
    + intros r Hr. destruct (SM r Hr) as (Esp & Lk). unfold backward_inplace_mpi. rewrite Esp. cbn [s2_base0 s2_base1]. rewrite Lk by (cbn; auto). rewrite (inx p _ _ g ins Hin r Hr). reflexivity.
  - eapply brun_ext. apply (backward_run b0 b1 bm p Hd zo Hz _ _ _ _ _ _ g m h (fun r x => backward (zo r) b1 x 1) B0 B1 Sg A0 A1 F). intros r x Hr Hx. reflexivity.
    intros r Hr. destruct (SM r Hr) as (Esp & Lk). unfold backward_mpi. rewrite Esp. cbn [s2_base0 s2_base1]. rewrite Lk by (cbn; auto). rewrite (inx p _ _ g ins Hin r Hr). reflexivity.
Qed.
Lemma to_ortho_call ip g o ins outs o' : proper (s2_shape_spectral sp) g -> proper (s2_shape_spectral_ortho sp) o ->
  x_pencils_of (s2_shape_spectral sp) p g ins -> x_pencils_of (s2_shape_spectral_ortho sp) p o' outs ->
  exists h res, (if ip : bool then s2_to_ortho_inplace zs sp g o else s2_to_ortho zs sp g) = Ok h /\ proper (s2_shape_spectral_ortho sp) h /\
    x_pencils_of (s2_shape_spectral_ortho sp) p h res /\
    brun p (fun r => spec (if ip then to_ortho_inplace_mpi bm (zo r) (smf r) (ins r) (outs r) else to_ortho_mpi bm (zo r) (smf r) (ins r)) : mprog (mix P I S) (arr S)) res.
Proof.
  intros Hg Ho Hin Hout. pose (VP := deg dP : Vec R P). pose (VI := deg dI : Vec R I). pose (VS := deg dS : Vec R S).
  destruct (any_facts EX HE HZ I S S b0 dI dS dS U0) as (F0 & B0 & O0 & Q0). destruct (any_facts EX HE HZ P I S b1 dP dI dS U1) as (F1 & B1 & O1 & Q1).
  destruct (C53_space2_applies_each_base_along_its_axis A N Z0 EX HE HZ P I S S b0 b1 U0 U1 dP dI dS dS zs Hzs) as (_ & _ & K & _).
  destruct (K g o Hg Ho) as (m & h & E' & E & Ph & A0 & A1).
  exists h, (fun r => xpen (len_orth b0) (len_orth b1) p h r true). split; [destruct ip; auto|]. split; auto. split. apply (outx p (len_orth b0) (len_orth b1) h).
  assert (F : p <= len_orth b0 /\ p <= len_spec b1 /\ pencils_fit (len_orth b0) (len_spec b1) p) by (apply (any_dist_orth EX b0 b1 U0 U1 p Hd); cbn; auto).
  assert (F' : p <= len_orth b0 /\ p <= len_orth b1 /\ pencils_fit (len_orth b0) (len_orth b1) p) by (apply (any_dist_orth EX b0 b1 U0 U1 p Hd); cbn; auto).
  assert (Sg : shp g = [len_spec b0; len_spec b1]) by apply Hg.
  apply (brun_via of_spec get_spec (fun x => eq_refl)). destruct ip.
  - eapply brun_ext. apply (ortho_run b0 b1 bm p Hd zo Hz _ _ _ _ _ _ g m h outs O0 O1 Sg A0 A1 F F'). exact (xprop _ _ _ _ _ _ Hout).
    intros r Hr. destruct (SM r Hr) as (Esp & Lk). unfold to_ortho_inplace_mpi. rewrite Esp. cbn [s2_base0 s2_base1]. rewrite !Lk by (cbn; auto). rewrite (inx p _ _ g ins Hin r Hr). reflexivity.
  - eapply brun_ext. apply (ortho_run b0 b1 bm p Hd zo Hz _ _ _ _ _ _ g m h (fun r => azeros dflt (d_sz (x_pencil (dcp (len_orth b0) (len_orth b1) p r)))) O0 O1 Sg A0 A1 F F'). intros r Hr. apply zeros_x.
    intros r Hr. destruct (SM r Hr) as (Esp & Lk). unfold to_ortho_mpi. rewrite Esp. cbn [s2_base0 s2_base1]. rewrite !Lk by (cbn; auto). rewrite (inx p _ _ g ins Hin r Hr). reflexivity.
Qed.
Lemma from_ortho_call ip g o ins outs o' : proper (s2_shape_spectral_ortho sp) g -> proper (s2_shape_spectral sp) o ->
  x_pencils_of (s2_shape_spectral_ortho sp) p g ins -> x_pencils_of (s2_shape_spectral sp) p o' outs ->
  exists h res, (if ip : bool then s2_from_ortho_inplace zs sp g o else s2_from_ortho zs sp g) = Ok h /\ proper (s2_shape_spectral sp) h /\
    x_pencils_of (s2_shape_spectral sp) p h res /\
    brun p (fun r => spec (if ip then from_ortho_inplace_mpi bm (zo r) (smf r) (ins r) (outs r) else from_ortho_mpi bm (zo r) (smf r) (ins r)) : mprog (mix P I S) (arr S)) res.
Proof.
  intros Hg Ho Hin Hout. pose (VP := deg dP : Vec R P). pose (VI := deg dI : Vec R I). pose (VS := deg dS : Vec R S).
  destruct (any_facts EX HE HZ I S S b0 dI dS dS U0) as (F0 & B0 & O0 & Q0). destruct (any_facts EX HE HZ P I S b1 dP dI dS U1) as (F1 & B1 & O1 & Q1).
  destruct (C53_space2_applies_each_base_along_its_axis A N Z0 EX HE HZ P I S S b0 b1 U0 U1 dP dI dS dS zs Hzs) as (_ & _ & _ & K).
  destruct (K g o Hg Ho) as (m & h & E' & E & Ph & A0 & A1).
  exists h, (fun r => xpen (len_spec b0) (len_spec b1) p h r true). split; [destruct ip; auto|]. split; auto. split. apply (outx p (len_spec b0) (len_spec b1) h).
  assert (F : p <= len_spec b0 /\ p <= len_orth b1 /\ pencils_fit (len_spec b0) (len_orth b1) p) by (apply (any_dist_orth EX b0 b1 U0 U1 p Hd); cbn; auto).
  assert (F' : p <= len_spec b0 /\ p <= len_spec b1 /\ pencils_fit (len_spec b0) (len_spec b1) p) by (apply (any_dist_orth EX b0 b1 U0 U1 p Hd); cbn; auto).
  assert (Sg : shp g = [len_orth b0; len_orth b1]) by apply Hg.
  apply (brun_via of_spec get_spec (fun x => eq_refl)). destruct ip.
  - eapply brun_ext. apply (ortho_run b0 b1 bm p Hd zo Hz _ _ _ _ _ _ g m h outs Q0 Q1 Sg A0 A1 F F'). exact (xprop _ _ _ _ _ _ Hout).
    intros r Hr. destruct (SM r Hr) as (Esp & Lk). unfold from_ortho_inplace_mpi. rewrite Esp. cbn [s2_base0 s2_base1]. rewrite !Lk by (cbn; auto). rewrite (inx p _ _ g ins Hin r Hr). reflexivity.
  - eapply brun_ext. apply (ortho_run b0 b1 bm p Hd zo Hz _ _ _ _ _ _ g m h (fun r => azeros dflt (d_sz (x_pencil (dcp (len_spec b0) (len_spec b1) p r)))) Q0 Q1 Sg A0 A1 F F'). intros r Hr. apply zeros_x.
    intros r Hr. destruct (SM r Hr) as (Esp & Lk). unfold from_ortho_mpi. rewrite Esp. cbn [s2_base0 s2_base1]. rewrite !Lk by (cbn; auto). rewrite (inx p _ _ g ins Hin r Hr). reflexivity.
Qed.
Lemma scale_proper {A'} {N' : Num A'} {D : DivInto A' S} d0 d1 (scale : option (A' * A')) sh (h : arr S) : proper sh h -> proper sh (s2_scale d0 d1 scale h).
Proof.
  destruct scale as [[s0 s1]|]; auto. intros (Sh & St & W). unfold s2_scale, scale_arr. split; [|split]; auto.
  unfold wf in *. cbn [dat shp]. rewrite map_length. auto.
Qed.
Lemma gradient_call {A'} {N' : Num A'} {D : DivInto A' S} d0 d1 (scale : option (A' * A')) g ins : total_gradient b0 d0 -> total_gradient b1 d1 ->
  proper (s2_shape_spectral sp) g -> x_pencils_of (s2_shape_spectral sp) p g ins ->
  exists h res, s2_gradient zs sp g d0 d1 scale = Ok h /\ proper (s2_shape_spectral_ortho sp) h /\ x_pencils_of (s2_shape_spectral_ortho sp) p h res /\
    brun p (fun r => spec (gradient_mpi bm (zo r) (smf r) (ins r) d0 d1 scale) : mprog (mix P I S) (arr S)) res.
Proof.
  intros T0 T1 Hg Hin. pose (VP := deg dP : Vec R P). pose (VI := deg dI : Vec R I). pose (VS := deg dS : Vec R S).
  pose proof (any_grad_linop EX HE HZ I S S b0 d0 dS U0 T0) as L0. pose proof (any_grad_linop EX HE HZ P I S b1 d1 dS U1 T1) as L1.
  destruct (C53_space2_gradient A N Z0 EX HE HZ P I S S b0 b1 U0 U1 dP dI dS dS A' N' D zs Hzs d0 d1 T0 T1 g Hg) as (m & h & E & Ph & A0 & A1).
  exists (s2_scale d0 d1 scale h), (fun r => xpen (len_orth b0) (len_orth b1) p (s2_scale d0 d1 scale h) r true).
  split. { unfold s2_gradient in E |- *. destruct (gradient zs _ g d0); try discriminate. cbn [bind] in *. destruct (gradient zs _ _ d1 1); try discriminate. cbn [bind] in *. injection E as ->. auto. }
  split. apply scale_proper; auto. split. apply (outx p (len_orth b0) (len_orth b1) (s2_scale d0 d1 scale h)).
  assert (F : p <= len_orth b0 /\ p <= len_spec b1 /\ pencils_fit (len_orth b0) (len_spec b1) p) by (apply (any_dist_orth EX b0 b1 U0 U1 p Hd); cbn; auto).
  assert (F' : p <= len_orth b0 /\ p <= len_orth b1 /\ pencils_fit (len_orth b0) (len_orth b1) p) by (apply (any_dist_orth EX b0 b1 U0 U1 p Hd); cbn; auto).
  assert (Sg : shp g = [len_spec b0; len_spec b1]) by apply Hg.
  apply (brun_via of_spec get_spec (fun x => eq_refl)). eapply brun_ext.
  - apply (gradient_run b0 b1 bm p Hd zo Hz _ _ _ _ _ _ g m h (fun r => azeros dflt (d_sz (x_pencil (dcp (len_orth b0) (len_orth b1) p r)))) (s2_scale d0 d1 scale) (s2_scale d0 d1 scale h) L0 L1 Sg A0 A1 F F').
    intros r Hr; apply zeros_x. intros r Hr. destruct scale as [[s0 s1]|]; auto. cbn [s2_scale]. apply scale_xpen; auto. apply Hd. split; apply Ph.
  - intros r Hr. destruct (SM r Hr) as (Esp & Lk). unfold gradient_mpi. rewrite Esp. cbn [s2_base0 s2_base1]. rewrite !Lk by (cbn; auto). rewrite (inx p _ _ g ins Hin r Hr).
    cbn [mlift mbind]. rewrite gradient_axop. f_equal. apply functional_extensionality. intros a. f_equal. apply functional_extensionality. intros y. rewrite gradient_axop. reflexivity.
Qed.

(** moving data of global shape [e0; e1] *)
Lemma move_call {T} {dT : Dflt T} e0 e1 (g o : arr T) : p <= e0 /\ p <= e1 /\ pencils_fit e0 e1 p ->
  (forall ins outs, x_pencils_of [e0; e1] p g ins -> y_pencils_of [e0; e1] p o outs ->
    exists res, y_pencils_of [e0; e1] p g res /\ brun p (fun r => transpose_x_to_y bm (dcp e0 e1 p r) (ins r) (outs r)) res) /\
  (forall ins outs, y_pencils_of [e0; e1] p g ins -> x_pencils_of [e0; e1] p o outs ->
    exists res, x_pencils_of [e0; e1] p g res /\ brun p (fun r => transpose_y_to_x bm (dcp e0 e1 p r) (ins r) (outs r)) res).
Proof.
  intros (Ha & Hb & F). split.
  - intros ins outs Hin Hout. exists (fun r => ypen e0 e1 p g r true). split. apply outy.
    eapply brun_ext. eapply brun_res. apply (transpose_xy_run bm e0 e1 p g (proj1 Hd) Ha Hb (fun r Hr => proj1 (F r Hr)) (fun r Hr => proj2 (F r Hr)) (fun _ => true) outs).
    + intros r Hr. destruct (yprop _ _ _ _ _ _ Hout r Hr) as (? & ? & ?). split; auto.
    + intros r Hr. cbn beta. f_equal. apply (yprop _ _ _ _ _ _ Hout r Hr).
    + intros r Hr. cbn beta. rewrite (inx p _ _ g ins Hin r Hr). reflexivity.
  - intros ins outs Hin Hout. exists (fun r => xpen e0 e1 p g r true). split. apply outx.
    eapply brun_ext. eapply brun_res. apply (transpose_yx_run bm e0 e1 p g (proj1 Hd) Ha Hb (fun r Hr => proj1 (F r Hr)) (fun r Hr => proj2 (F r Hr)) (fun _ => true) outs).
    + intros r Hr. destruct (xprop _ _ _ _ _ _ Hout r Hr) as (? & ? & ?). split; auto.
    + intros r Hr. cbn beta. f_equal. apply (xprop _ _ _ _ _ _ Hout r Hr).
    + intros r Hr. cbn beta. rewrite (iny p _ _ g ins Hin r Hr). reflexivity.
Qed.
Lemma scatter_call {T} {dT : Dflt T} e0 e1 (g o : arr T) : proper [e0; e1] g -> (Z.of_nat (e0 * e1) < 2 ^ 31)%Z ->
  (forall outs, x_pencils_of [e0; e1] p o outs -> exists res, x_pencils_of [e0; e1] p g res /\
    brun p (fun r => if r =? 0 then scatter_x_inplace_root bm (dcp e0 e1 p r) g (outs r) else scatter_x_inplace (dcp e0 e1 p r) (outs r)) res) /\
  (forall outs, y_pencils_of [e0; e1] p o outs -> exists res, y_pencils_of [e0; e1] p g res /\
    brun p (fun r => if r =? 0 then scatter_y_inplace_root bm (dcp e0 e1 p r) g (outs r) else scatter_y_inplace (dcp e0 e1 p r) (outs r)) res).
Proof.
  intros (Sg & Tg & Wg) B. change (2 ^ 31)%Z with 2147483648%Z in B. split.
  - intros outs Hout. exists (fun r => xpen e0 e1 p g r true). split. apply outx. eapply brun_res.
    apply (scatter_x_run bm e0 e1 p g (proj1 Hd) (Logic.conj Sg Wg) B outs).
    + intros r Hr. destruct (xprop _ _ _ _ _ _ Hout r Hr) as (? & ? & ?). split; auto.
    + intros r Hr. cbn beta. f_equal. apply (xprop _ _ _ _ _ _ Hout r Hr).
  - intros outs Hout. exists (fun r => ypen e0 e1 p g r true). split. apply outy. eapply brun_res.
    apply (scatter_y_run bm e0 e1 p g (proj1 Hd) (Logic.conj Sg Wg) B outs).
    + intros r Hr. destruct (yprop _ _ _ _ _ _ Hout r Hr) as (? & ? & ?). split; auto.
    + intros r Hr. cbn beta. f_equal. apply (yprop _ _ _ _ _ _ Hout r Hr).
Qed.
Lemma gather_call {T} {dT : Dflt T} e0 e1 (g : arr T) : proper [e0; e1] g -> (Z.of_nat (e0 * e1) < 2 ^ 31)%Z ->
  (forall ins, x_pencils_of [e0; e1] p g ins -> brun p (fun r => all_gather_x bm (dcp e0 e1 p r) (ins r) (azeros dflt [e0; e1])) (fun _ => g)) /\
  (forall ins, y_pencils_of [e0; e1] p g ins -> brun p (fun r => all_gather_y bm (dcp e0 e1 p r) (ins r) (azeros dflt [e0; e1])) (fun _ => g)).
Proof.
  intros (Sg & Tg & Wg) B. change (2 ^ 31)%Z with 2147483648%Z in B.
  assert (W : whole e0 e1 g true = g). { rewrite whole_eq by (split; auto). destruct g as [sh st l]. cbn [shp std dat] in *. subst. reflexivity. }
  split; intros ins Hin; eapply brun_ext.
  - eapply brun_res. apply (all_gather_x_run bm e0 e1 p g (proj1 Hd) B (fun _ => true) (fun _ => azeros dflt [e0; e1])). intros r Hr. apply zeros_shape. intros r Hr. exact W.
  - intros r Hr. cbn beta. rewrite (inx p _ _ g ins Hin r Hr). reflexivity.
  - eapply brun_res. apply (all_gather_y_run bm e0 e1 p g (proj1 Hd) B (fun _ => true) (fun _ => azeros dflt [e0; e1])). intros r Hr. apply zeros_shape. intros r Hr. exact W.
  - intros r Hr. cbn beta. rewrite (iny p _ _ g ins Hin r Hr). reflexivity.
Qed.
Lemma lines_call {T} {dT : Dflt T} e0 e1 f (a b : arr T) :
  proper [e0; e1] (on_columns e0 e1 0 f a b) /\ proper [e0; e1] (on_rows e0 e1 0 f a b) /\
  (forall xs ys, x_pencils_of [e0; e1] p a xs -> x_pencils_of [e0; e1] p b ys ->
     x_pencils_of [e0; e1] p (on_columns e0 e1 0 f a b) (fun r => on_columns e0 (blk_len e1 p r) (blk_lo e1 p r) f (xs r) (ys r))) /\
  (forall xs ys, y_pencils_of [e0; e1] p a xs -> y_pencils_of [e0; e1] p b ys ->
     y_pencils_of [e0; e1] p (on_rows e0 e1 0 f a b) (fun r => on_rows (blk_len e0 p r) e1 (blk_lo e0 p r) f (xs r) (ys r))).
Proof.
  pose proof (proj1 Hd) as Hp.
  split. { destruct (tab_shape e0 e1 (fun i j => (f (0 + j) (map (fun i => get a [i; j]) (seq 0 e0)) (map (fun i => get b [i; j]) (seq 0 e0))).[i]) true). split; [|split]; auto. }
  split. { destruct (tab_shape e0 e1 (fun i j => (f (0 + i) (map (fun j => get a [i; j]) (seq 0 e1)) (map (fun j => get b [i; j]) (seq 0 e1))).[j]) true). split; [|split]; auto. }
  split; intros xs ys Hx Hy r Hr; destruct (Hx r Hr) as ((_ & _ & Ga) & _); destruct (Hy r Hr) as ((_ & _ & Gb) & _).
  - split; [|reflexivity]. unfold x_block. unfold on_columns at 1 2 3. split; [reflexivity|]. split; [apply tab_shape|]. intros i j Hi Hj.
    change ([e0; e1].[0]) with e0 in *. change ([e0; e1].[1]) with e1 in *. pose proof (blk_end_le e1 p Hp r Hr). unfold on_columns.
    rewrite !get_tab by (auto; lia). cbn [Nat.add]. f_equal. f_equal; apply map_ext_in; intros k Hk; apply in_seq in Hk; [apply Ga|apply Gb]; lia.
  - split; [|reflexivity]. unfold y_block. unfold on_rows at 1 2 3. split; [reflexivity|]. split; [apply tab_shape|]. intros i j Hi Hj.
    change ([e0; e1].[0]) with e0 in *. change ([e0; e1].[1]) with e1 in *. pose proof (blk_end_le e0 p Hp r Hr). unfold on_rows.
    rewrite !get_tab by (auto; lia). cbn [Nat.add]. f_equal. f_equal; apply map_ext_in; intros k Hk; apply in_seq in Hk; [apply Ga|apply Gb]; lia.
Qed.
End Calls.

(** ** The store *)
Section Store.
Context {P I S : Type} {dP : Dflt P} {dI : Dflt I} {dS : Dflt S}.
Variables (sps : list (space2 P I S S)) (p : nat).
Definition pen_ok {T} {dT : Dflt T} (l : layout) (n0 n1 : nat) (h : arr T) (res : nat -> arr T) : Prop :=
  match l with InX => x_pencils_of [n0; n1] p h res | InY => y_pencils_of [n0; n1] p h res end.
Lemma get_phys_pen m par l n0 n1 j : pencils sps p m par -> phys_shape sps n0 n1 -> pen_ok l n0 n1 (phys_arr m l n0 n1 j) (fun r => phys_arr (par r) l n0 n1 j).
Proof. intros (H & _) Hs. destruct (H n0 n1 j Hs). destruct l; auto. Qed.
Lemma get_spec_pen m par l n0 n1 j : pencils sps p m par -> spec_shape sps n0 n1 -> pen_ok l n0 n1 (spec_arr m l n0 n1 j) (fun r => spec_arr (par r) l n0 n1 j).
Proof. intros (_ & H) Hs. destruct (H n0 n1 j Hs). destruct l; auto. Qed.
Lemma set_reg_pen {T} {dT : Dflt T} (f : layout -> nat -> nat -> nat -> arr T) (fr : nat -> layout -> nat -> nat -> nat -> arr T) l n0 n1 j h res l' m0 m1 k :
  pen_ok l n0 n1 h res -> pen_ok l' m0 m1 (f l' m0 m1 k) (fun r => fr r l' m0 m1 k) ->
  pen_ok l' m0 m1 (set_reg f l n0 n1 j h l' m0 m1 k) (fun r => set_reg (fr r) l n0 n1 j (res r) l' m0 m1 k).
Proof.
  intros H K. unfold set_reg. destruct l, l'; cbn [lay_eqb andb]; auto; destruct (Nat.eqb_spec m0 n0) as [->|]; cbn [andb]; auto;
  destruct (Nat.eqb_spec m1 n1) as [->|]; cbn [andb]; auto; destruct (k =? j); auto.
Qed.
Lemma set_phys_pen m par l n0 n1 j h res : pencils sps p m par -> pen_ok l n0 n1 h res ->
  pencils sps p (set_phys m l n0 n1 j h) (fun r => set_phys (par r) l n0 n1 j (res r)).
Proof.
  intros (HP & HS) H. split; [|exact HS]. intros m0 m1 k Hs. destruct (HP m0 m1 k Hs) as [X Y]. split.
  - apply (set_reg_pen (phys_arr m) (fun r => phys_arr (par r)) l n0 n1 j h res InX m0 m1 k H X).
  - apply (set_reg_pen (phys_arr m) (fun r => phys_arr (par r)) l n0 n1 j h res InY m0 m1 k H Y).
Qed.
Lemma set_spec_pen m par l n0 n1 j h res : pencils sps p m par -> pen_ok l n0 n1 h res ->
  pencils sps p (set_spec m l n0 n1 j h) (fun r => set_spec (par r) l n0 n1 j (res r)).
Proof.
  intros (HP & HS) H. split; [exact HP|]. intros m0 m1 k Hs. destruct (HS m0 m1 k Hs) as [X Y]. split.
  - apply (set_reg_pen (spec_arr m) (fun r => spec_arr (par r)) l n0 n1 j h res InX m0 m1 k H X).
  - apply (set_reg_pen (spec_arr m) (fun r => spec_arr (par r)) l n0 n1 j h res InY m0 m1 k H Y).
Qed.
Lemma set_reg_proper {T} (f : layout -> nat -> nat -> nat -> arr T) l n0 n1 j h l' m0 m1 k :
  proper [n0; n1] h -> proper [m0; m1] (f l' m0 m1 k) -> proper [m0; m1] (set_reg f l n0 n1 j h l' m0 m1 k).
Proof.
  intros H K. unfold set_reg. destruct l, l'; cbn [lay_eqb andb]; auto; destruct (Nat.eqb_spec m0 n0) as [->|]; cbn [andb]; auto;
  destruct (Nat.eqb_spec m1 n1) as [->|]; cbn [andb]; auto; destruct (k =? j); auto.
Qed.
Lemma set_phys_shaped m l n0 n1 j h : well_shaped sps m -> proper [n0; n1] h -> well_shaped sps (set_phys m l n0 n1 j h).
Proof. intros (HP & HS) H. split; [|exact HS]. intros l' m0 m1 k Hs. apply set_reg_proper; auto. Qed.
Lemma set_spec_shaped m l n0 n1 j h : well_shaped sps m -> proper [n0; n1] h -> well_shaped sps (set_spec m l n0 n1 j h).
Proof. intros (HP & HS) H. split; [exact HP|]. intros l' m0 m1 k Hs. apply set_reg_proper; auto. Qed.
End Store.

(** ** One step, and the whole program *)
Section Run.
Context {A0 : Type} {N0 : Num A0} {Z0 : EqZ A0} (EX : ext A0) {A P I S : Type} {N : Num A} {D : DivInto A S} {dP : Dflt P} {dI : Dflt I} {dS : Dflt S}.
Hypothesis HE : ext_ok EX.
Hypothesis HZ : is0 (n0 (A := A0)) = true.
Variables (sps : list (space2 P I S S)) (bm : bmode) (p : nat).
Hypothesis Hsp : forall sp, In sp sps -> any_usable EX I S S (s2_base0 sp) /\ any_usable EX P I S (s2_base1 sp) /\ distributable sp p.
Definition smf r (sp : space2 P I S S) : space2mpi P I S := match s2mpi_new bm p r sp with Ok sm => sm | _ => mk_space2mpi sp handler_new end.

Lemma smf_ok r sp : r < p -> In sp sps -> let b0 := s2_base0 sp in let b1 := s2_base1 sp in
  s2mpi_new bm p r sp = Ok (smf r sp) /\ sm_space (smf r sp) = sp /\
  forall e0 e1, In e0 [len_phys b0; len_spec b0; len_orth b0] -> In e1 [len_phys b1; len_spec b1; len_orth b1] -> get_dcp (smf r sp) [e0; e1] = Ok (dcp e0 e1 p r).
Proof.
  intros Hr Hi. destruct (Hsp sp Hi) as (U0 & U1 & Hd). destruct sp as [b0 b1]. cbn [s2_base0 s2_base1] in *.
  destruct (any_new_and_lookups EX b0 b1 U0 U1 bm p Hd r Hr) as (sm & Es & Esp & Lk). unfold smf. rewrite Es. auto.
Qed.
Lemma new_all_ok r : r < p -> new_all bm p r sps = Ok (map (smf r) sps).
Proof.
  intros Hr. assert (H : forall l, (forall sp, In sp l -> In sp sps) -> new_all bm p r l = Ok (map (smf r) l)).
  { induction l as [|sp l IH]; intros Hl; cbn [new_all map]; auto. destruct (smf_ok r sp Hr (Hl sp ltac:(cbn; auto))) as (-> & _). cbn [bind]. rewrite IH by (intros; apply Hl; cbn; auto). reflexivity. }
  apply H. auto.
Qed.
Lemma find_sm r s sp : nth_error sps s = Some sp -> find (map (smf r) sps) s = Ok (smf r sp).
Proof. intros H. unfold find. rewrite nth_error_map, H. reflexivity. Qed.
Lemma bind_set {X Y} (ms : nat -> mprog (mix P I S) X) (f : nat -> X -> Y) res : brun p ms res ->
  brun p (fun r => let! h := ms r in MRet (f r h)) (fun r => f r (res r)).
Proof. intros H. eapply (brun_bind p ms (fun r h => MRet (f r h))). exact H. apply brun_ret. auto. Qed.

Lemma step_run zs (zo : nat -> zip_order) : zip_ok zs -> (forall r, zip_ok (zo r)) ->
  forall st m par, step_ok sps st -> well_shaped sps m -> pencils sps p m par ->
  exists m' l par', serial_step (N := N) (D := D) zs sps st m = Ok (m', l) /\ well_shaped sps m' /\ pencils sps p m' par' /\
    brun p (fun r => rank_step bm (zo r) r (map (smf r) sps) st (par r)) (fun r => (par' r, l)).
Proof.
  intros Hzs Hz st m par Hst Hw Hpen.
  assert (SM : forall sp, In sp sps -> forall r, r < p -> sm_space (smf r sp) = mk_space2 (s2_base0 sp) (s2_base1 sp) /\
    forall e0 e1, In e0 [len_phys (s2_base0 sp); len_spec (s2_base0 sp); len_orth (s2_base0 sp)] -> In e1 [len_phys (s2_base1 sp); len_spec (s2_base1 sp); len_orth (s2_base1 sp)] -> get_dcp (smf r sp) [e0; e1] = Ok (dcp e0 e1 p r)).
  { intros sp Hi r Hr. destruct (smf_ok r sp Hr Hi) as (_ & E & L). split; auto. rewrite E. destruct sp; auto. }
  assert (PS : forall sp, In sp sps -> phys_shape sps (len_phys (s2_base0 sp)) (len_phys (s2_base1 sp))) by (intros sp Hi; exists sp; auto).
  assert (SS : forall sp, In sp sps -> spec_shape sps (len_spec (s2_base0 sp)) (len_spec (s2_base1 sp))) by (intros sp Hi; exists sp; auto).
  assert (OS : forall sp, In sp sps -> spec_shape sps (len_orth (s2_base0 sp)) (len_orth (s2_base1 sp))) by (intros sp Hi; exists sp; auto).
  destruct st as [ip s i j|ip s i j|ip s i j|ip s i j|s i j d0 d1 scale|to s i j|to s i j|l s f i j k|l s f i j k|l s g j|l s g j|l s i|l s i];
    cbn [step_ok] in Hst; destruct Hst as (sp & Hn & Hst) || destruct Hst as (sp & Hn); pose proof (nth_error_In _ _ Hn) as Hi; destruct (Hsp sp Hi) as (U0 & U1 & Hd);
    specialize (SM sp Hi); specialize (PS sp Hi); specialize (SS sp Hi); specialize (OS sp Hi);
    destruct sp as [b0 b1]; cbn [s2_base0 s2_base1] in *; cbn [serial_step]; unfold find at 1; rewrite Hn; cbn [bind s2_base0 s2_base1].
  - destruct (forward_call EX HE HZ b0 b1 U0 U1 bm p Hd (fun r => smf r (mk_space2 b0 b1)) SM zs zo Hzs Hz ip _ _ _ _ _
      (proj1 Hw InY _ _ i PS) (proj2 Hw InX _ _ j SS) (get_phys_pen sps p m par InY _ _ i Hpen PS) (get_spec_pen sps p m par InX _ _ j Hpen SS)) as (h & res & E & Ph & X & B).
    exists (set_spec m InX (len_spec b0) (len_spec b1) j h), [], (fun r => set_spec (par r) InX (len_spec b0) (len_spec b1) j (res r)).
    split. { unfold s2_shape_physical, s2_shape_spectral in E. rewrite E. reflexivity. } split. { apply set_spec_shaped; auto. } split. { apply set_spec_pen; auto. }
    eapply brun_ext. apply (bind_set _ (fun r h => (set_spec (par r) InX (len_spec b0) (len_spec b1) j h, [])) res B).
    intros r Hr. cbn [rank_step]. rewrite (find_sm r s _ Hn). destruct (SM r Hr) as (Esp & _). cbn [mlift mbind]. rewrite Esp. reflexivity.
  - destruct (backward_call EX HE HZ b0 b1 U0 U1 bm p Hd (fun r => smf r (mk_space2 b0 b1)) SM zs zo Hzs Hz ip _ _ _ _ _
      (proj2 Hw InX _ _ i SS) (proj1 Hw InY _ _ j PS) (get_spec_pen sps p m par InX _ _ i Hpen SS) (get_phys_pen sps p m par InY _ _ j Hpen PS)) as (h & res & E & Ph & X & B).
    exists (set_phys m InY (len_phys b0) (len_phys b1) j h), [], (fun r => set_phys (par r) InY (len_phys b0) (len_phys b1) j (res r)).
    split. { rewrite E. reflexivity. } split. { apply set_phys_shaped; auto. } split. { apply set_phys_pen; auto. }
    eapply brun_ext. apply (bind_set _ (fun r h => (set_phys (par r) InY (len_phys b0) (len_phys b1) j h, [])) res B).
    intros r Hr. cbn [rank_step]. rewrite (find_sm r s _ Hn). destruct (SM r Hr) as (Esp & _). cbn [mlift mbind]. rewrite Esp. reflexivity.
  - destruct (to_ortho_call EX HE HZ b0 b1 U0 U1 bm p Hd (fun r => smf r (mk_space2 b0 b1)) SM zs zo Hzs Hz ip _ _ _ _ _
      (proj2 Hw InX _ _ i SS) (proj2 Hw InX _ _ j OS) (get_spec_pen sps p m par InX _ _ i Hpen SS) (get_spec_pen sps p m par InX _ _ j Hpen OS)) as (h & res & E & Ph & X & B).
    exists (set_spec m InX (len_orth b0) (len_orth b1) j h), [], (fun r => set_spec (par r) InX (len_orth b0) (len_orth b1) j (res r)).
    split. { rewrite E. reflexivity. } split. { apply set_spec_shaped; auto. } split. { apply set_spec_pen; auto. }
    eapply brun_ext. apply (bind_set _ (fun r h => (set_spec (par r) InX (len_orth b0) (len_orth b1) j h, [])) res B).
    intros r Hr. cbn [rank_step]. rewrite (find_sm r s _ Hn). destruct (SM r Hr) as (Esp & _). cbn [mlift mbind]. rewrite Esp. reflexivity.
  - destruct (from_ortho_call EX HE HZ b0 b1 U0 U1 bm p Hd (fun r => smf r (mk_space2 b0 b1)) SM zs zo Hzs Hz ip _ _ _ _ _
      (proj2 Hw InX _ _ i OS) (proj2 Hw InX _ _ j SS) (get_spec_pen sps p m par InX _ _ i Hpen OS) (get_spec_pen sps p m par InX _ _ j Hpen SS)) as (h & res & E & Ph & X & B).
    exists (set_spec m InX (len_spec b0) (len_spec b1) j h), [], (fun r => set_spec (par r) InX (len_spec b0) (len_spec b1) j (res r)).
    split. { rewrite E. reflexivity. } split. { apply set_spec_shaped; auto. } split. { apply set_spec_pen; auto. }
    eapply brun_ext. apply (bind_set _ (fun r h => (set_spec (par r) InX (len_spec b0) (len_spec b1) j h, [])) res B).
    intros r Hr. cbn [rank_step]. rewrite (find_sm r s _ Hn). destruct (SM r Hr) as (Esp & _). cbn [mlift mbind]. rewrite Esp. reflexivity.
  - destruct (gradient_call EX HE HZ b0 b1 U0 U1 bm p Hd (fun r => smf r (mk_space2 b0 b1)) SM zs zo Hzs Hz d0 d1 scale _ _ (proj1 Hst) (proj2 Hst)
      (proj2 Hw InX _ _ i SS) (get_spec_pen sps p m par InX _ _ i Hpen SS)) as (h & res & E & Ph & X & B).
    exists (set_spec m InX (len_orth b0) (len_orth b1) j h), [], (fun r => set_spec (par r) InX (len_orth b0) (len_orth b1) j (res r)).
    split. { rewrite E. reflexivity. } split. { apply set_spec_shaped; auto. } split. { apply set_spec_pen; auto. }
    eapply brun_ext. apply (bind_set _ (fun r h => (set_spec (par r) InX (len_orth b0) (len_orth b1) j h, [])) res B).
    intros r Hr. cbn [rank_step]. rewrite (find_sm r s _ Hn). destruct (SM r Hr) as (Esp & _). cbn [mlift mbind]. rewrite Esp. reflexivity.
  - destruct (move_call b0 b1 bm p Hd (len_phys b0) (len_phys b1) (phys_arr m (other to) (len_phys b0) (len_phys b1) i) (phys_arr m to (len_phys b0) (len_phys b1) j)
      ltac:(apply (any_dist_orth EX b0 b1 U0 U1 p Hd); cbn; auto)) as (Mxy & Myx).
    assert (R : exists res, pen_ok p to (len_phys b0) (len_phys b1) (phys_arr m (other to) (len_phys b0) (len_phys b1) i) res /\
      brun p (fun r => phys (match to with InX => transpose_y_to_x_phys bm (smf r (mk_space2 b0 b1)) (phys_arr (par r) (other to) (len_phys b0) (len_phys b1) i) (phys_arr (par r) to (len_phys b0) (len_phys b1) j)
        | InY => transpose_x_to_y_phys bm (smf r (mk_space2 b0 b1)) (phys_arr (par r) (other to) (len_phys b0) (len_phys b1) i) (phys_arr (par r) to (len_phys b0) (len_phys b1) j) end) : mprog (mix P I S) (arr P)) res).
    { destruct to; cbn [other] in *.
      - destruct (Myx _ _ (get_phys_pen sps p m par InY _ _ i Hpen PS) (get_phys_pen sps p m par InX _ _ j Hpen PS)) as (res & X & B). exists res. split; auto.
        apply (brun_via of_phys get_phys (fun x => eq_refl)). eapply brun_ext. exact B. intros r Hr. destruct (SM r Hr) as (Esp & Lk). unfold transpose_y_to_x_phys, with_phys. rewrite Esp. unfold s2_shape_physical. cbn [s2_base0 s2_base1]. rewrite Lk by (cbn; auto). reflexivity.
      - destruct (Mxy _ _ (get_phys_pen sps p m par InX _ _ i Hpen PS) (get_phys_pen sps p m par InY _ _ j Hpen PS)) as (res & X & B). exists res. split; auto.
        apply (brun_via of_phys get_phys (fun x => eq_refl)). eapply brun_ext. exact B. intros r Hr. destruct (SM r Hr) as (Esp & Lk). unfold transpose_x_to_y_phys, with_phys. rewrite Esp. unfold s2_shape_physical. cbn [s2_base0 s2_base1]. rewrite Lk by (cbn; auto). reflexivity. }
    destruct R as (res & X & B). exists (set_phys m to (len_phys b0) (len_phys b1) j (phys_arr m (other to) (len_phys b0) (len_phys b1) i)), [], (fun r => set_phys (par r) to (len_phys b0) (len_phys b1) j (res r)).
    split; [reflexivity|]. split. { apply set_phys_shaped; auto. apply (proj1 Hw); auto. } split. { apply set_phys_pen; auto. }
    eapply brun_ext. apply (bind_set _ (fun r h => (set_phys (par r) to (len_phys b0) (len_phys b1) j h, [])) res B).
    intros r Hr. cbn [rank_step]. rewrite (find_sm r s _ Hn). destruct (SM r Hr) as (Esp & _). cbn [mlift mbind]. rewrite Esp. reflexivity.
  - destruct (move_call b0 b1 bm p Hd (len_spec b0) (len_spec b1) (spec_arr m (other to) (len_spec b0) (len_spec b1) i) (spec_arr m to (len_spec b0) (len_spec b1) j)
      ltac:(apply (any_dist_orth EX b0 b1 U0 U1 p Hd); cbn; auto)) as (Mxy & Myx).
    assert (R : exists res, pen_ok p to (len_spec b0) (len_spec b1) (spec_arr m (other to) (len_spec b0) (len_spec b1) i) res /\
      brun p (fun r => spec (match to with InX => transpose_y_to_x_spec bm (smf r (mk_space2 b0 b1)) (spec_arr (par r) (other to) (len_spec b0) (len_spec b1) i) (spec_arr (par r) to (len_spec b0) (len_spec b1) j)
        | InY => transpose_x_to_y_spec bm (smf r (mk_space2 b0 b1)) (spec_arr (par r) (other to) (len_spec b0) (len_spec b1) i) (spec_arr (par r) to (len_spec b0) (len_spec b1) j) end) : mprog (mix P I S) (arr S)) res).
    { destruct to; cbn [other] in *.
      - destruct (Myx _ _ (get_spec_pen sps p m par InY _ _ i Hpen SS) (get_spec_pen sps p m par InX _ _ j Hpen SS)) as (res & X & B). exists res. split; auto.
        apply (brun_via of_spec get_spec (fun x => eq_refl)). eapply brun_ext. exact B. intros r Hr. destruct (SM r Hr) as (Esp & Lk). unfold transpose_y_to_x_spec, with_spec. rewrite Esp. unfold s2_shape_spectral. cbn [s2_base0 s2_base1]. rewrite Lk by (cbn; auto). reflexivity.
      - destruct (Mxy _ _ (get_spec_pen sps p m par InX _ _ i Hpen SS) (get_spec_pen sps p m par InY _ _ j Hpen SS)) as (res & X & B). exists res. split; auto.
        apply (brun_via of_spec get_spec (fun x => eq_refl)). eapply brun_ext. exact B. intros r Hr. destruct (SM r Hr) as (Esp & Lk). unfold transpose_x_to_y_spec, with_spec. rewrite Esp. unfold s2_shape_spectral. cbn [s2_base0 s2_base1]. rewrite Lk by (cbn; auto). reflexivity. }
    destruct R as (res & X & B). exists (set_spec m to (len_spec b0) (len_spec b1) j (spec_arr m (other to) (len_spec b0) (len_spec b1) i)), [], (fun r => set_spec (par r) to (len_spec b0) (len_spec b1) j (res r)).
    split; [reflexivity|]. split. { apply set_spec_shaped; auto. apply (proj2 Hw); auto. } split. { apply set_spec_pen; auto. }
    eapply brun_ext. apply (bind_set _ (fun r h => (set_spec (par r) to (len_spec b0) (len_spec b1) j h, [])) res B).
    intros r Hr. cbn [rank_step]. rewrite (find_sm r s _ Hn). destruct (SM r Hr) as (Esp & _). cbn [mlift mbind]. rewrite Esp. reflexivity.
  - destruct (lines_call b0 b1 p Hd (len_phys b0) (len_phys b1) f (phys_arr m l (len_phys b0) (len_phys b1) i) (phys_arr m l (len_phys b0) (len_phys b1) j)) as (P1 & P2 & L1 & L2).
    eexists _, [], (fun r => set_phys (par r) l (len_phys b0) (len_phys b1) k (match l with
      | InX => on_columns (len_phys b0) (blk_len (len_phys b1) p r) (blk_lo (len_phys b1) p r) f (phys_arr (par r) l (len_phys b0) (len_phys b1) i) (phys_arr (par r) l (len_phys b0) (len_phys b1) j)
      | InY => on_rows (blk_len (len_phys b0) p r) (len_phys b1) (blk_lo (len_phys b0) p r) f (phys_arr (par r) l (len_phys b0) (len_phys b1) i) (phys_arr (par r) l (len_phys b0) (len_phys b1) j) end)).
    split; [reflexivity|]. split. { apply set_phys_shaped; auto. destruct l; auto. }
    split. { apply set_phys_pen; auto. destruct l; [apply L1|apply L2]; [apply (get_phys_pen sps p m par InX)|apply (get_phys_pen sps p m par InX)|apply (get_phys_pen sps p m par InY)|apply (get_phys_pen sps p m par InY)]; auto. }
    apply brun_ret. intros r Hr. cbn [rank_step]. rewrite (find_sm r s _ Hn). destruct (SM r Hr) as (Esp & Lk). cbn [mlift mbind]. rewrite Esp. cbn [s2_base0 s2_base1]. rewrite Lk by (cbn; auto). reflexivity.
  - destruct (lines_call b0 b1 p Hd (len_spec b0) (len_spec b1) f (spec_arr m l (len_spec b0) (len_spec b1) i) (spec_arr m l (len_spec b0) (len_spec b1) j)) as (P1 & P2 & L1 & L2).
    eexists _, [], (fun r => set_spec (par r) l (len_spec b0) (len_spec b1) k (match l with
      | InX => on_columns (len_spec b0) (blk_len (len_spec b1) p r) (blk_lo (len_spec b1) p r) f (spec_arr (par r) l (len_spec b0) (len_spec b1) i) (spec_arr (par r) l (len_spec b0) (len_spec b1) j)
      | InY => on_rows (blk_len (len_spec b0) p r) (len_spec b1) (blk_lo (len_spec b0) p r) f (spec_arr (par r) l (len_spec b0) (len_spec b1) i) (spec_arr (par r) l (len_spec b0) (len_spec b1) j) end)).
    split; [reflexivity|]. split. { apply set_spec_shaped; auto. destruct l; auto. }
    split. { apply set_spec_pen; auto. destruct l; [apply L1|apply L2]; [apply (get_spec_pen sps p m par InX)|apply (get_spec_pen sps p m par InX)|apply (get_spec_pen sps p m par InY)|apply (get_spec_pen sps p m par InY)]; auto. }
    apply brun_ret. intros r Hr. cbn [rank_step]. rewrite (find_sm r s _ Hn). destruct (SM r Hr) as (Esp & Lk). cbn [mlift mbind]. rewrite Esp. cbn [s2_base0 s2_base1]. rewrite Lk by (cbn; auto). reflexivity.
  - destruct Hst as (Pg & Bd). destruct (scatter_call b0 b1 bm p Hd (len_phys b0) (len_phys b1) g (phys_arr m l (len_phys b0) (len_phys b1) j) Pg Bd) as (Sx & Sy).
    assert (R : exists res, pen_ok p l (len_phys b0) (len_phys b1) g res /\
      brun p (fun r => phys (match l with
        | InX => if r =? 0 then scatter_to_x_pencil_phys_root bm (smf r (mk_space2 b0 b1)) g (phys_arr (par r) l (len_phys b0) (len_phys b1) j) else scatter_to_x_pencil_phys (smf r (mk_space2 b0 b1)) (phys_arr (par r) l (len_phys b0) (len_phys b1) j)
        | InY => if r =? 0 then scatter_to_y_pencil_phys_root bm (smf r (mk_space2 b0 b1)) g (phys_arr (par r) l (len_phys b0) (len_phys b1) j) else scatter_to_y_pencil_phys (smf r (mk_space2 b0 b1)) (phys_arr (par r) l (len_phys b0) (len_phys b1) j) end) : mprog (mix P I S) (arr P)) res).
    { destruct l.
      - destruct (Sx _ (get_phys_pen sps p m par InX _ _ j Hpen PS)) as (res & X & B). exists res. split; auto.
        apply (brun_via of_phys get_phys (fun x => eq_refl)). eapply brun_ext. exact B. intros r Hr. destruct (SM r Hr) as (Esp & Lk). unfold scatter_to_x_pencil_phys_root, scatter_to_x_pencil_phys, with_phys. rewrite Esp. unfold s2_shape_physical. cbn [s2_base0 s2_base1]. rewrite Lk by (cbn; auto). reflexivity.
      - destruct (Sy _ (get_phys_pen sps p m par InY _ _ j Hpen PS)) as (res & X & B). exists res. split; auto.
        apply (brun_via of_phys get_phys (fun x => eq_refl)). eapply brun_ext. exact B. intros r Hr. destruct (SM r Hr) as (Esp & Lk). unfold scatter_to_y_pencil_phys_root, scatter_to_y_pencil_phys, with_phys. rewrite Esp. unfold s2_shape_physical. cbn [s2_base0 s2_base1]. rewrite Lk by (cbn; auto). reflexivity. }
    destruct R as (res & X & B). exists (set_phys m l (len_phys b0) (len_phys b1) j g), [], (fun r => set_phys (par r) l (len_phys b0) (len_phys b1) j (res r)).
    split; [reflexivity|]. split. { apply set_phys_shaped; auto. } split. { apply set_phys_pen; auto. }
    eapply brun_ext. apply (bind_set _ (fun r h => (set_phys (par r) l (len_phys b0) (len_phys b1) j h, [])) res B).
    intros r Hr. cbn [rank_step]. rewrite (find_sm r s _ Hn). destruct (SM r Hr) as (Esp & _). cbn [mlift mbind]. rewrite Esp. reflexivity.
  - destruct Hst as (Pg & Bd). destruct (scatter_call b0 b1 bm p Hd (len_spec b0) (len_spec b1) g (spec_arr m l (len_spec b0) (len_spec b1) j) Pg Bd) as (Sx & Sy).
    assert (R : exists res, pen_ok p l (len_spec b0) (len_spec b1) g res /\
      brun p (fun r => spec (match l with
        | InX => if r =? 0 then scatter_to_x_pencil_spec_root bm (smf r (mk_space2 b0 b1)) g (spec_arr (par r) l (len_spec b0) (len_spec b1) j) else scatter_to_x_pencil_spec (smf r (mk_space2 b0 b1)) (spec_arr (par r) l (len_spec b0) (len_spec b1) j)
        | InY => if r =? 0 then scatter_to_y_pencil_spec_root bm (smf r (mk_space2 b0 b1)) g (spec_arr (par r) l (len_spec b0) (len_spec b1) j) else scatter_to_y_pencil_spec (smf r (mk_space2 b0 b1)) (spec_arr (par r) l (len_spec b0) (len_spec b1) j) end) : mprog (mix P I S) (arr S)) res).
    { destruct l.
      - destruct (Sx _ (get_spec_pen sps p m par InX _ _ j Hpen SS)) as (res & X & B). exists res. split; auto.
        apply (brun_via of_spec get_spec (fun x => eq_refl)). eapply brun_ext. exact B. intros r Hr. destruct (SM r Hr) as (Esp & Lk). unfold scatter_to_x_pencil_spec_root, scatter_to_x_pencil_spec, with_spec. rewrite Esp. unfold s2_shape_spectral. cbn [s2_base0 s2_base1]. rewrite Lk by (cbn; auto). reflexivity.
      - destruct (Sy _ (get_spec_pen sps p m par InY _ _ j Hpen SS)) as (res & X & B). exists res. split; auto.
        apply (brun_via of_spec get_spec (fun x => eq_refl)). eapply brun_ext. exact B. intros r Hr. destruct (SM r Hr) as (Esp & Lk). unfold scatter_to_y_pencil_spec_root, scatter_to_y_pencil_spec, with_spec. rewrite Esp. unfold s2_shape_spectral. cbn [s2_base0 s2_base1]. rewrite Lk by (cbn; auto). reflexivity. }
    destruct R as (res & X & B). exists (set_spec m l (len_spec b0) (len_spec b1) j g), [], (fun r => set_spec (par r) l (len_spec b0) (len_spec b1) j (res r)).
    split; [reflexivity|]. split. { apply set_spec_shaped; auto. } split. { apply set_spec_pen; auto. }
    eapply brun_ext. apply (bind_set _ (fun r h => (set_spec (par r) l (len_spec b0) (len_spec b1) j h, [])) res B).
    intros r Hr. cbn [rank_step]. rewrite (find_sm r s _ Hn). destruct (SM r Hr) as (Esp & _). cbn [mlift mbind]. rewrite Esp. reflexivity.
  - destruct (gather_call b0 b1 bm p Hd (len_phys b0) (len_phys b1) (phys_arr m l (len_phys b0) (len_phys b1) i) (proj1 Hw l _ _ i PS) Hst) as (Gx & Gy).
    eexists m, _, par. split; [reflexivity|]. split; auto. split; auto.
    assert (B : brun p (fun r => phys (match l with InX => all_gather_from_x_pencil_phys bm (smf r (mk_space2 b0 b1)) (phys_arr (par r) l (len_phys b0) (len_phys b1) i) (azeros dflt [len_phys b0; len_phys b1])
      | InY => all_gather_from_y_pencil_phys bm (smf r (mk_space2 b0 b1)) (phys_arr (par r) l (len_phys b0) (len_phys b1) i) (azeros dflt [len_phys b0; len_phys b1]) end) : mprog (mix P I S) (arr P)) (fun _ => phys_arr m l (len_phys b0) (len_phys b1) i)).
    { apply (brun_via of_phys get_phys (fun x => eq_refl)). destruct l.
      - eapply brun_ext. exact (Gx _ (get_phys_pen sps p m par InX _ _ i Hpen PS)). intros r Hr. destruct (SM r Hr) as (Esp & Lk). unfold all_gather_from_x_pencil_phys, with_phys. rewrite Esp. unfold s2_shape_physical. cbn [s2_base0 s2_base1]. rewrite Lk by (cbn; auto). reflexivity.
      - eapply brun_ext. exact (Gy _ (get_phys_pen sps p m par InY _ _ i Hpen PS)). intros r Hr. destruct (SM r Hr) as (Esp & Lk). unfold all_gather_from_y_pencil_phys, with_phys. rewrite Esp. unfold s2_shape_physical. cbn [s2_base0 s2_base1]. rewrite Lk by (cbn; auto). reflexivity. }
    eapply brun_ext. apply (bind_set _ (fun r h => (par r, [SeenPhys h])) _ B).
    intros r Hr. cbn [rank_step]. rewrite (find_sm r s _ Hn). destruct (SM r Hr) as (Esp & _). cbn [mlift mbind]. rewrite Esp. reflexivity.
  - destruct (gather_call b0 b1 bm p Hd (len_spec b0) (len_spec b1) (spec_arr m l (len_spec b0) (len_spec b1) i) (proj2 Hw l _ _ i SS) Hst) as (Gx & Gy).
    eexists m, _, par. split; [reflexivity|]. split; auto. split; auto.
    assert (B : brun p (fun r => spec (match l with InX => all_gather_from_x_pencil_spec bm (smf r (mk_space2 b0 b1)) (spec_arr (par r) l (len_spec b0) (len_spec b1) i) (azeros dflt [len_spec b0; len_spec b1])
      | InY => all_gather_from_y_pencil_spec bm (smf r (mk_space2 b0 b1)) (spec_arr (par r) l (len_spec b0) (len_spec b1) i) (azeros dflt [len_spec b0; len_spec b1]) end) : mprog (mix P I S) (arr S)) (fun _ => spec_arr m l (len_spec b0) (len_spec b1) i)).
    { apply (brun_via of_spec get_spec (fun x => eq_refl)). destruct l.
      - eapply brun_ext. exact (Gx _ (get_spec_pen sps p m par InX _ _ i Hpen SS)). intros r Hr. destruct (SM r Hr) as (Esp & Lk). unfold all_gather_from_x_pencil_spec, with_spec. rewrite Esp. unfold s2_shape_spectral. cbn [s2_base0 s2_base1]. rewrite Lk by (cbn; auto). reflexivity.
      - eapply brun_ext. exact (Gy _ (get_spec_pen sps p m par InY _ _ i Hpen SS)). intros r Hr. destruct (SM r Hr) as (Esp & Lk). unfold all_gather_from_y_pencil_spec, with_spec. rewrite Esp. unfold s2_shape_spectral. cbn [s2_base0 s2_base1]. rewrite Lk by (cbn; auto). reflexivity. }
    eapply brun_ext. apply (bind_set _ (fun r h => (par r, [SeenSpec h])) _ B).
    intros r Hr. cbn [rank_step]. rewrite (find_sm r s _ Hn). destruct (SM r Hr) as (Esp & _). cbn [mlift mbind]. rewrite Esp. reflexivity.
Qed.

Lemma program_run (zs : nat -> zip_order) (zo : nat -> nat -> zip_order) : (forall c, zip_ok (zs c)) -> (forall r c, zip_ok (zo r c)) ->
  forall pr c m par log, admissible (N := N) (D := D) zs sps c pr m log -> well_shaped sps m -> pencils sps p m par ->
  exists m' log' par', serial_run (N := N) (D := D) zs sps c pr m log = Ok (m', log') /\ well_shaped sps m' /\ pencils sps p m' par' /\
    brun p (fun r => rank_run bm (zo r) r (map (smf r) sps) c pr (par r) log) (fun r => (par' r, log')).
Proof.
  intros Hzs Hz. induction pr as [|st k IH]; intros c m par log Had Hw Hpen.
  - exists m, log, par. repeat (split; [solve [auto]|]). apply brun_ret. auto.
  - destruct Had as (Hst & Had). destruct (step_run (zs c) (fun r => zo r c) (Hzs c) (fun r => Hz r c) st m par Hst Hw Hpen) as (m1 & l & par1 & E & Hw1 & Hpen1 & B1).
    destruct (IH (log ++ l) (Datatypes.S c) m1 par1 (log ++ l) (Had m1 l E) Hw1 Hpen1) as (m' & log' & par' & E' & Hw' & Hpen' & B').
    exists m', log', par'. cbn [serial_run rank_run]. rewrite E. cbn [bind fst snd]. split; auto. split; auto. split; auto.
    eapply (brun_bind p (fun r => rank_step bm (zo r c) r (map (smf r) sps) st (par r)) (fun r ml => rank_run bm (zo r) r (map (smf r) sps) (Datatypes.S c) (k (log ++ snd ml)) (fst ml) (log ++ snd ml))).
    exact B1. cbn [fst snd]. exact B'.
Qed.
End Run.

(** Any program (any number of calls, spaces and arrays; local arithmetic;
    control flow that depends on gathered data), in any arithmetic, on any
    number of ranks that can hold the arrays: the serial run returns; the
    distributed run terminates on every rank under every schedule, every rank
    holds its pencils of the serial arrays, and every rank has gathered exactly
    what the serial program has seen. *)
Theorem C70_mpi_programs_behave_like_serial_programs :
  forall A0 (N0 : Num A0) (Z0 : EqZ A0) (E : ext A0), ext_ok E -> is0 (n0 (A := A0)) = true ->
  forall A P I S (N : Num A) (D : DivInto A S) (dP : Dflt P) (dI : Dflt I) (dS : Dflt S) (sps : list (space2 P I S S)) bm p,
  (forall sp, In sp sps -> any_usable E I S S (s2_base0 sp) /\ any_usable E P I S (s2_base1 sp) /\ distributable sp p) ->
  forall zs zo, (forall c, zip_ok (zs c)) -> (forall r c, zip_ok (zo r c)) ->
  forall (pr : program A P S) (m : store P S) (par : nat -> store P S),
  well_shaped sps m -> admissible zs sps 0 pr m [] -> pencils sps p m par ->
  exists m' log par', serial_run zs sps 0 pr m [] = Ok (m', log) /\ pencils sps p m' par' /\
    every_schedule (mpi_program bm zo p sps pr par) (map (fun r => (par' r, log)) (seq 0 p)).
Proof.
  intros A0 N0 Z0 EX HE HZ A P I S N D dP dI dS sps bm p Hsp zs zo Hzs Hz pr m par Hw Had Hpen.
  destruct (program_run EX HE HZ sps bm p Hsp zs zo Hzs Hz pr 0 m par [] Had Hw Hpen) as (m' & log & par' & E & _ & Hpen' & B).
  exists m', log, par'. split; auto. split; auto. unfold mpi_program. apply brun_every_schedule. eapply brun_ext. exact B.
  intros r Hr. cbn beta. rewrite (new_all_ok EX sps bm p Hsp r Hr). reflexivity.
Qed.
Print Assumptions C70_mpi_programs_behave_like_serial_programs.

(** What a program gathers does not depend on the number of ranks. *)
Theorem C70_gathered_data_do_not_depend_on_the_number_of_ranks :
  forall A0 (N0 : Num A0) (Z0 : EqZ A0) (E : ext A0), ext_ok E -> is0 (n0 (A := A0)) = true ->
  forall A P I S (N : Num A) (D : DivInto A S) (dP : Dflt P) (dI : Dflt I) (dS : Dflt S) (sps : list (space2 P I S S)) bm bm' p q,
  (forall sp, In sp sps -> any_usable E I S S (s2_base0 sp) /\ any_usable E P I S (s2_base1 sp) /\ distributable sp p /\ distributable sp q) ->
  forall zs zo zo', (forall c, zip_ok (zs c)) -> (forall r c, zip_ok (zo r c)) -> (forall r c, zip_ok (zo' r c)) ->
  forall (pr : program A P S) (m : store P S) (par par' : nat -> store P S),
  well_shaped sps m -> admissible zs sps 0 pr m [] -> pencils sps p m par -> pencils sps q m par' ->
  exists log res res', every_schedule (mpi_program bm zo p sps pr par) (map (fun r => (res r, log)) (seq 0 p)) /\
    every_schedule (mpi_program bm' zo' q sps pr par') (map (fun r => (res' r, log)) (seq 0 q)).
Proof.
  intros A0 N0 Z0 EX HE HZ A P I S N D dP dI dS sps bm bm' p q Hsp zs zo zo' Hzs Hz Hz' pr m par par' Hw Had Hp Hq.
  destruct (C70_mpi_programs_behave_like_serial_programs A0 N0 Z0 EX HE HZ A P I S N D dP dI dS sps bm p ltac:(intros sp Hi; destruct (Hsp sp Hi) as (? & ? & ? & ?); auto) zs zo Hzs Hz pr m par Hw Had Hp) as (m1 & l1 & r1 & E1 & _ & S1).
  destruct (C70_mpi_programs_behave_like_serial_programs A0 N0 Z0 EX HE HZ A P I S N D dP dI dS sps bm' q ltac:(intros sp Hi; destruct (Hsp sp Hi) as (? & ? & ? & ?); auto) zs zo' Hzs Hz' pr m par' Hw Had Hq) as (m2 & l2 & r2 & E2 & _ & S2).
  rewrite E1 in E2. injection E2 as <- <-. exists l1, r1, r2. auto.
Qed.
Print Assumptions C70_gathered_data_do_not_depend_on_the_number_of_ranks.

(** The hypotheses are met: in binary64, a Fourier (6) x Dirichlet (7) space and
    the Fourier x Chebyshev space of its derivatives on three ranks, and a
    nonlinear time loop of any length that stops early when the gathered field
    satisfies a condition. *)
Section Example.
Context (stop : seen f64 (cplx f64) -> bool) (dt : f64) (u0 : arr f64).
Definition advection_step (k : list (seen f64 (cplx f64)) -> program f64 f64 (cplx f64)) : program f64 f64 (cplx f64) :=
  Do (Forward false 0 0 0) (fun _ =>
  Do (Gradient 0 0 0 1 0 (Some (dt, dt))) (fun _ =>
  Do (Backward true 1 0 1) (fun _ =>
  Do (LinesPhys InY 0 (fun _ u ux => map (fun p => nsub (fst p) (nmul dt (nmul (fst p) (snd p)))) (combine u ux)) 0 1 0) (fun _ =>
  Do (AllGatherPhys InY 0 0) k)))).
Fixpoint advection (n : nat) : program f64 f64 (cplx f64) :=
  match n with
  | 0 => Stop
  | Datatypes.S n => advection_step (fun log => match rev log with x :: _ => if stop x then Stop else advection n | [] => Stop end)
  end.
Definition advect n := Do (ScatterPhys InY 0 u0 0) (fun _ => advection n).
End Example.
Example C70_hyps_met : forall Tr : Trig f64, exists (E : ext f64) f b c, ext_ok E /\ is0 (n0 (A := f64)) = true /\
  r2c_new 6 = Ok f /\ new_composite KDirichlet 7 = Ok b /\ new_chebyshev 7 = Ok c /\
  let sps := [mk_space2 (r2c_ops_x E f) (r2r_ops_x E (T := cplx f64) b); mk_space2 (r2c_ops_x E f) (r2r_ops_x E (T := cplx f64) c)] in
  (forall sp, In sp sps -> any_usable E f64 (cplx f64) (cplx f64) (s2_base0 sp) /\ any_usable E f64 f64 (cplx f64) (s2_base1 sp) /\ distributable sp 3 /\ distributable sp 1) /\
  exists (m : store f64 (cplx f64)) par, well_shaped sps m /\ pencils sps 3 m par /\
  (forall stop dt u0 n zs, proper [6; 7] u0 -> admissible zs sps 0 (advect stop dt u0 n) m []) /\
  proper [6; 7] (mk_arr [6; 7] true (map (fun k => nofZ (Z.of_nat k)) (seq 0 42)) : arr f64).
Proof.
  intros Tr. exists documented. pose proof (documented_ok (A := f64)) as HE. assert (HZ : is0 (n0 (A := f64)) = true) by reflexivity.
  destruct (r2c_new 6) as [f| |] eqn:Ef; try discriminate.
  destruct (C53_constructors f64 num_f64) as (KC & KK & _). specialize (KK KDirichlet 7). destruct (new_composite KDirichlet 7) as [b| |] eqn:Eb; [|cbn in KK; lia|tauto].
  destruct (new_chebyshev 7) as [c| |] eqn:Ec; try (exfalso; clear - KC Ec; specialize (KC 7); rewrite Ec in KC; cbn in KC; lia || tauto).
  exists f, b, c. do 5 (split; [assumption || reflexivity|]). cbv zeta.
  destruct (proj1 (C53_fourier_slices f64 _ _ documented HE HZ) 6 f Ef) as (P0 & S0 & O0 & _ & _ & _ & _ & G0).
  destruct (C53_composite_slices f64 _ documented HE (cplx f64) vec_cplx KDirichlet 7 b Eb) as (P1 & S1 & O1 & _ & _ & _ & G1).
  destruct (C53_chebyshev_slices f64 _ documented HE (cplx f64) vec_cplx 7 c Ec) as (P2 & S2 & O2 & _).
  change (6 / 2 + 1) with 4 in *. change (sdim KDirichlet 7) with 5 in *.
  assert (DI : forall p, p = 3 \/ p = 1 -> forall e0 e1, In e0 [6; 4] -> In e1 [7; 5] -> p <= e0 /\ p <= e1 /\ pencils_fit e0 e1 p).
  { intros p [->| ->] e0 e1 [<-|[<-|[]]] [<-|[<-|[]]]; repeat split; try lia; (destruct r as [|[|[|r]]]; [vm_compute; reflexivity..|lia]) || (destruct r; [vm_compute; reflexivity|lia]). }
  split.
  { intros sp [<-|[<-|[]]]; cbn [s2_base0 s2_base1]; (split; [eapply aus_r2c; eauto|]).
    - split. { apply (aus_composite documented _ _ KDirichlet 7); auto. }
      unfold distributable. cbn [s2_base0 s2_base1]. rewrite P0, S0, P1, S1. split; (split; [lia|]); apply DI; auto.
    - split. { eapply aus_chebyshev; eauto. }
      unfold distributable. cbn [s2_base0 s2_base1]. rewrite P0, S0, P2, S2. split; (split; [lia|]); intros e0 e1 H0 H1; (apply DI; [auto|auto|]); (destruct H1 as [<-|[<-|[]]]; left; reflexivity). }
  exists (mk_store (fun _ n0 n1 _ => azeros dflt [n0; n1]) (fun _ n0 n1 _ => azeros dflt [n0; n1])).
  exists (fun r => mk_store (fun l n0 n1 _ => match l with InX => xpen n0 n1 3 (azeros dflt [n0; n1]) r true | InY => ypen n0 n1 3 (azeros dflt [n0; n1]) r true end)
                            (fun l n0 n1 _ => match l with InX => xpen n0 n1 3 (azeros dflt [n0; n1]) r true | InY => ypen n0 n1 3 (azeros dflt [n0; n1]) r true end)).
  split. { split; intros; apply proper_zeros. }
  split. { split; intros n0 n1 j _; (split; [apply outx|apply outy]). }
  split; [|split; [reflexivity|]; split; reflexivity].
  intros stop dt u0 n zs Pu. unfold advect. cbn [admissible step_ok nth_error].
  split. { eexists. split; [reflexivity|]. cbn [s2_base0 s2_base1]. rewrite P0, P1. split; [exact Pu|reflexivity]. }
  intros m' l _. cbn [app]. revert m' l. generalize 1. induction n as [|n IH]; intros cnt m' l; [exact I|]. cbn [advection advection_step admissible step_ok nth_error].
  split. { eexists; reflexivity. } intros m1 l1 _.
  split. { eexists. split; [reflexivity|]. cbn [s2_base0 s2_base1]. unfold total_gradient. rewrite S0, O0, S1, O1. split.
    - intros x y Hx Hy. destruct (G0 1) as (g & Hg). exists (g x). apply (Hg x y); auto.
    - intros x y Hx Hy. destruct (G1 0) as (g & Hg). exists (g x). apply (Hg x y); auto. }
  intros m2 l2 _. split. { eexists; reflexivity. } intros m3 l3 _. split. { eexists; reflexivity. } intros m4 l4 _.
  split. { eexists. split; [reflexivity|]. cbn [s2_base0 s2_base1]. rewrite P0, P1. reflexivity. }
  intros m5 l5 _. destruct (rev _) as [|x rest]; [exact I|]. destruct (stop x); [exact I|]. apply IH.
Qed.
