(** Convolutions and pooling of arrays whose sizes fit. *)
From Coq Require Import String List Arith ZArith NArith Bool Lia Reals Lra.
Import ListNotations.
From Verif Require Import Graph_Model Eval_Model Eval_Spec Eval_Proofs Grad_Model Grad_Spec
  Scalar_Model Scalar_Spec Scalar_Proofs.
From Verif Require Import Array_Model Array_Proofs Array_Sum Arith_Model Arith_Proofs Vjp_Spec Vjp_Proofs Reduce_Proofs Dot_Proofs
  Kernel_Model Kernel_Proofs Conv_Model Conv_Loops Conv_Spec Conv_Proofs Conv_Forward Conv_Backward Conv_Filter P_Conv P_ConvGrad.
From Verif Require Import Tens_Model Tens_Spec Tens_Fwd.
From Verif Require Pool_Model Pool_Spec Pool_Proofs Pool_Final P_Pool.
Local Set Bullet Behavior "Strict Subproofs".

(** ** Convolutions *)
Lemma conv_out_ok x p s d k y : conv_out x p s d k = Some y -> u_out_size x p s d k = KOk y.
Proof.
  unfold conv_out. destruct (Nat.ltb_spec 0 s); [|discriminate]. destruct (Nat.ltb_spec 0 k); [|discriminate].
  destruct (Nat.ltb_spec (d * (k - 1)) (x + 2 * p)); [|discriminate]. intros E. inv E.
  unfold u_out_size, usub. destruct (Nat.leb_spec 1 k); [|lia]. cbn [kbind].
  destruct (Nat.leb_spec (d * (k - 1) + 1) (x + 2 * p)); [|lia]. cbn [kbind]. unfold udiv. destruct (Nat.eqb_spec s 0); [lia|]. reflexivity.
Qed.
Lemma small_ok l : small l = true -> in_i32 l.
Proof.
  unfold small, in_i32. intros H. apply Forall_forall. intros n Hn. rewrite forallb_forall in H. apply Z.ltb_lt. apply H. exact Hn.
Qed.
Lemma conv_ty_ok p s d x w y : conv_ty p s d x w = Some y -> exists b xch ych xh xw kh kw yh yw,
  x = [b; xch; xh; xw] /\ w = [ych; xch; kh; kw] /\ y = [b; ych; yh; yw] /\ conv_sizes xch ych xh xw kh kw p s d yh yw.
Proof.
  unfold conv_ty. destruct x as [|b [|xch [|xh [|xw [|]]]]]; try discriminate. destruct w as [|ych [|wch [|kh [|kw [|]]]]]; try discriminate.
  destruct (conv_out xh p s d kh) as [yh|] eqn:E1; [|discriminate]. destruct (conv_out xw p s d kw) as [yw|] eqn:E2; [|discriminate].
  destruct (Nat.eqb_spec xch wch) as [->|]; [|discriminate]. destruct (forallb _ _) eqn:EP; [|discriminate]. destruct (small _) eqn:ES; [|discriminate].
  intros E. assert (Ey : y = [b; ych; yh; yw]) by (simpl in E; congruence). clear E. exists b, wch, ych, xh, xw, kh, kw, yh, yw.
  split; [reflexivity|]. split; [reflexivity|]. split; [exact Ey|].
  apply conv_out_ok, u_out_size_ok in E1. apply conv_out_ok, u_out_size_ok in E2. apply small_ok in ES. cbn [forallb] in EP.
  repeat match goal with H : (_ && _)%bool = true |- _ => apply andb_prop in H; destruct H end.
  repeat match goal with H : (0 <? _)%nat = true |- _ => apply Nat.ltb_lt in H end.
  split; [tauto|]. split; [tauto|]. split; [tauto|exact ES].
Qed.
Lemma deconv_ty_ok checked p s d y w x : deconv_ty checked p s d y w = Some x -> exists b xch ych xh xw kh kw yh yw,
  x = [b; xch; xh; xw] /\ w = [ych; xch; kh; kw] /\ y = [b; ych; yh; yw] /\ conv_sizes xch ych xh xw kh kw p s d yh yw /\
  covers xh p s d kh yh /\ covers xw p s d kw yw /\ (checked = true -> 2 * p <= s * (yh - 1) /\ 2 * p <= s * (yw - 1)) /\ 0 < b /\
  conv_ty p s d x w = Some y.
Proof.
  unfold deconv_ty. destruct y as [|b [|ych [|yh [|yw [|]]]]]; try discriminate. destruct w as [|wch [|xch [|kh [|kw [|]]]]]; try discriminate.
  destruct (back_size checked yh p s d kh) as [xh|] eqn:B1; [|discriminate]. destruct (back_size checked yw p s d kw) as [xw|] eqn:B2; [|discriminate].
  destruct (conv_ty p s d [b; xch; xh; xw] [wch; xch; kh; kw]) as [y'|] eqn:EC; [|discriminate].
  destruct (Nat.ltb_spec 0 b) as [Hb|]; [|discriminate]. destruct (shape_eqb y' [b; ych; yh; yw]) eqn:EY; [|discriminate]. apply shape_eqb_ok in EY. subst y'.
  intros E. assert (Ex : x = [b; xch; xh; xw]) by (simpl in E; congruence). clear E. subst x.
  destruct (conv_ty_ok _ _ _ _ _ _ EC) as (b0 & xch0 & ych0 & xh0 & xw0 & kh0 & kw0 & yh0 & yw0 & Q1 & Q2 & Q3 & S). inv Q1. inv Q2. inv Q3.
  exists b0, xch0, ych0, xh0, xw0, kh0, kw0, yh0, yw0. split; [reflexivity|]. split; [reflexivity|]. split; [reflexivity|]. split; [exact S|].
  assert (BK : forall y k x, back_size checked y p s d k = Some x -> covers x p s d k y /\ (checked = true -> 2 * p <= s * (y - 1))).
  { clear. intros y k x. unfold back_size. destruct (Nat.ltb_spec 0 y); [|discriminate]. destruct (Nat.leb_spec (2 * p) (s * (y - 1) + d * (k - 1))); [|discriminate].
    cbn [andb]. destruct (negb checked || (2 * p <=? s * (y - 1))) eqn:EK; [|discriminate]. intros E. inv E. split; [unfold covers; lia|].
    intros ->. apply Nat.leb_le. exact EK. }
  apply BK in B1. apply BK in B2. destruct B1 as [C1 K1]. destruct B2 as [C2 K2]. split; [exact C1|]. split; [exact C2|]. split; [auto|]. split; [exact Hb|exact EC].
Qed.

Local Open Scope R_scope.
Lemma conv_value checked p s d b xch ych xh xw kh kw yh yw x w : conv_sizes xch ych xh xw kh kw p s d yh yw ->
  has_shape [b; xch; xh; xw] x -> has_shape [ych; xch; kh; kw] w ->
  tcompute (TConv checked p s d) [TA x; TA w] = Some (TA (conv_array b xch ych kh kw yh yw p s d x w)) /\
  tcompute (TConvCols p s d) [TA x; TA w] = Some (TA (cols_array b xch kh kw yh yw p s d x)).
Proof.
  intros S Hx Hw. cbn [tcompute]. pose proof (conv_run b xch ych xh xw kh kw p s d yh yw blank x w S Hx Hw) as E. rewrite E. split; reflexivity.
Qed.
Lemma conv_shape b xch ych kh kw yh yw p s d x w : has_shape [b; ych; yh; yw] (conv_array b xch ych kh kw yh yw p s d x w).
Proof. apply tab_has_shape. Qed.
Lemma cols_shape b xch kh kw yh yw p s d x : has_shape [b; xch; kw; kh; yh; yw] (cols_array b xch kh kw yh yw p s d x).
Proof.
  destruct (tab_has_shape [b; xch; kh; kw; yh; yw] (fun i => match i with b :: idx => column p s d x b idx | [] => 0 end)) as [_ L].
  split; [reflexivity|]. unfold cols_array. cbn [a_data]. rewrite L. simpl. lia.
Qed.
(** The filter gradient from any columns. *)
Lemma filter_grad_typed b xch ych kh kw yh yw u cols gy w : (0 < b)%nat -> has_shape [b; xch; kw; kh; yh; yw] cols ->
  has_shape [b; ych; yh; yw] gy -> a_shape w = [ych; xch; kh; kw] ->
  exists g, conv2d_filter_grad 0 Rplus Rmult u cols gy w = KOk g /\ has_shape [ych; xch; kh; kw] g.
Proof.
  intros PB Hc Hg Sw. unfold conv2d_filter_grad. rewrite (proj1 Hc), (proj1 Hg), Sw.
  assert (Hc' : has_shape (b :: [xch; kh; kw; yh; yw]) (Arr [b; xch; kh; kw; yh; yw] (a_data cols))).
  { split; [reflexivity|]. cbn [a_data]. destruct Hc as [_ L]. rewrite L. simpl. lia. }
  set (m0 := [a_data gy; []; a_data cols; fresh u (ych * xch * kh * kw)]).
  destruct (filter_gemm_at b xch ych kh kw yh yw m0 IN (xch * kw * kh * yh * yw) gy (fun b' idx => aget 0 (Arr [b; xch; kh; kw; yh; yw] (a_data cols)) (b' :: idx)) ltac:(discriminate) PB) as (m' & E & V).
  - intros i Hi. apply (load_array m0 IN gy); [reflexivity|exact Hg|exact Hi].
  - intros b' idx Hi.
    replace (b' * (xch * kw * kh * yh * yw) + ravel [xch; kh; kw; yh; yw] idx)%nat with (ravel (b :: [xch; kh; kw; yh; yw]) (b' :: idx)) by (cbn [ravel]; rewrite (cs_prod xch kh kw yh yw); lia).
    apply (load_array m0 COLS (Arr [b; xch; kh; kw; yh; yw] (a_data cols)) (b :: [xch; kh; kw; yh; yw])); [reflexivity|exact Hc'|exact Hi].
  - intros i Hi. rewrite (load_data m0 OUT (fresh u (ych * xch * kh * kw))) by reflexivity. apply nth_error_Some. rewrite fresh_length. lia.
  - rewrite (load_data m0 OUT (fresh u (ych * xch * kh * kw))) by reflexivity. apply nth_error_None. rewrite fresh_length. lia.
  - rewrite E, V. eexists. split; [reflexivity|]. apply tab_has_shape.
Qed.
Lemma filter_grad_value p s d b xch ych kh kw yh yw x gy w : (0 < b)%nat -> has_shape [b; ych; yh; yw] gy -> has_shape [ych; xch; kh; kw] w ->
  tcompute TConvGradW [TA (cols_array b xch kh kw yh yw p s d x); TA gy; TA w] = Some (TA (filter_array b xch ych kh kw yh yw p s d x gy)).
Proof. intros PB Hg Hw. cbn [tcompute]. rewrite (conv2d_filter_grad_value b xch ych kh kw p s d yh yw) by (auto; exact (proj1 Hw)). reflexivity. Qed.
Lemma deconv_value checked p s d b xch ych xh xw kh kw yh yw y w : conv_sizes xch ych xh xw kh kw p s d yh yw ->
  covers xh p s d kh yh -> covers xw p s d kw yw -> (checked = true -> 2 * p <= s * (yh - 1) /\ 2 * p <= s * (yw - 1))%nat -> (0 < b)%nat ->
  has_shape [b; ych; yh; yw] y -> has_shape [ych; xch; kh; kw] w ->
  tcompute (TConvT checked p s d) [TA y; TA w] = Some (TA (transposed_array b xch xh xw kh kw p s d yh yw ych w y)).
Proof.
  intros S C1 C2 K PB Hy Hw. cbn [tcompute]. pose proof (transpose_run checked b xch ych xh xw kh kw p s d yh yw blank y w S C1 C2 K PB Hy Hw) as E.
  rewrite E. reflexivity.
Qed.
Lemma deconv_shape b xch xh xw kh kw p s d yh yw ych w y : has_shape [b; xch; xh; xw] (transposed_array b xch xh xw kh kw p s d yh yw ych w y).
Proof. apply tab_has_shape. Qed.
Lemma deconv_filter_value p s d b xch ych xh xw kh kw yh yw gy x w : conv_sizes xch ych xh xw kh kw p s d yh yw ->
  (0 < b)%nat -> (yh = yw \/ b = 1)%nat -> has_shape [b; xch; xh; xw] gy -> has_shape [b; ych; yh; yw] x -> has_shape [ych; xch; kh; kw] w ->
  tcompute (TConvTGradW p s d) [TA gy; TA x; TA w] = Some (TA (filter_array b xch ych kh kw yh yw p s d gy x)).
Proof.
  intros S PB Sq Hg Hx Hw. cbn [tcompute].
  rewrite (transpose_filter_value b xch ych kh kw p s d yh yw xh xw blank (sizes_h _ _ _ _ _ _ _ _ _ _ _ S) (sizes_w _ _ _ _ _ _ _ _ _ _ _ S) (sizes_fit4 _ _ _ _ _ _ _ _ _ _ _ S));
    first [reflexivity | assumption | exact (proj1 Hw) | destruct S; tauto].
Qed.
Lemma square_ok b c h w : square [b; c; h; w] = true -> (h = w \/ b = 1)%nat.
Proof. simpl. intros H. apply orb_prop in H. destruct H as [H|H]; apply Nat.eqb_eq in H; auto. Qed.

(** ** Pooling *)
Lemma div_places x s size i : (0 < s)%nat -> (size <= x)%nat -> (i < (x - size) / s + 1)%nat <-> (i * s + size <= x)%nat.
Proof.
  intros Hs Hx. pose proof (Nat.div_mod (x - size) s ltac:(lia)) as D. pose proof (Nat.mod_upper_bound (x - size) s ltac:(lia)) as M.
  set (q := ((x - size) / s)%nat) in *. split; intros H.
  - assert (i * s <= q * s)%nat by (apply Nat.mul_le_mono_r; lia). lia.
  - destruct (Nat.lt_ge_cases i (q + 1)) as [|G]; [assumption|]. assert ((q + 1) * s <= i * s)%nat by (apply Nat.mul_le_mono_r; lia). lia.
Qed.
Lemma pool_ty_ok p s size x y : pool_ty p s size x = Some y -> exists b ch xh xw yh yw,
  p = 0%nat /\ x = [b; ch; xh; xw] /\ y = [b; ch; yh; yw] /\ Pool_Spec.pool_sizes xh xw 0 s size yh yw /\
  (yh = (xh - size) / s + 1)%nat /\ (yw = (xw - size) / s + 1)%nat.
Proof.
  unfold pool_ty. destruct x as [|b [|ch [|xh [|xw [|]]]]]; try discriminate.
  destruct (Nat.eqb_spec p 0); [|discriminate]. destruct (Nat.ltb_spec 0 s); [|discriminate]. destruct (Nat.ltb_spec 0 size); [|discriminate].
  destruct (Nat.leb_spec size xh) as [L1|]; [|discriminate]. destruct (Nat.leb_spec size xw) as [L2|]; [|discriminate]. cbn [andb].
  destruct (forallb _ _) eqn:EF; [|discriminate]. intros E. rewrite forallb_forall in EF.
  pose proof (EF xh (or_introl eq_refl)) as F1. pose proof (EF xw (or_intror (or_introl eq_refl))) as F2. apply Z.ltb_lt in F1. apply Z.ltb_lt in F2.
  exists b, ch, xh, xw, ((xh - size) / s + 1)%nat, ((xw - size) / s + 1)%nat. split; [assumption|]. split; [reflexivity|]. split; [congruence|]. split; [|split; reflexivity].
  assert (A : forall n, (2 * n + 4 * 0 = 2 * n)%nat) by (intros; lia).
  assert (B : forall n, (n + 2 * 0 = n)%nat) by (intros; lia).
  unfold Pool_Spec.pool_sizes, Pool_Spec.fits. rewrite !A, !B. split; [assumption|]. split; [assumption|]. split; [lia|]. split; [lia|].
  split; [intros i; apply div_places; assumption|]. split; [intros i; apply div_places; assumption|]. split; assumption.
Qed.
Lemma pool_exact_ok bits s size b ch xh xw yh yw : pool_exact bits s size [b; ch; xh; xw] = true ->
  (yh = (xh - size) / s + 1)%nat -> (yw = (xw - size) / s + 1)%nat ->
  Pool_Spec.pool_covers xh 0 s size yh /\ Pool_Spec.pool_covers xw 0 s size yw /\ (N.of_nat (b * ch * xh * xw) <= 2 ^ bits)%N.
Proof.
  unfold pool_exact. intros H E1 E2. apply andb_prop in H. destruct H as [H L]. apply N.leb_le in L. cbn [forallb] in H.
  destruct (Nat.eqb_spec (s * ((xh - size) / s) + size) xh) as [Q1|]; [|discriminate]. destruct (Nat.eqb_spec (s * ((xw - size) / s) + size) xw) as [Q2|]; [|discriminate].
  unfold Pool_Spec.pool_covers. subst yh yw. rewrite !Nat.add_sub. split; [lia|]. split; [lia|exact L].
Qed.
Definition win (lowest : R) (checked : bool) (ch xh xw s size : nat) (x : arr R) (ix : list nat) : R * nat :=
  Pool_Final.the_window lowest checked ch xh xw 0 s size x ix.
Lemma pool_value lowest bits checked s size b ch xh xw yh yw x : Pool_Spec.pool_sizes xh xw 0 s size yh yw -> has_shape [b; ch; xh; xw] x ->
  tcompute (TPool lowest bits checked 0 s size) [TA x] = Some (TA (tab [b; ch; yh; yw] (fun ix => fst (win lowest checked ch xh xw s size x ix)))).
Proof.
  intros S Hx. cbn [tcompute]. pose proof (Pool_Final.pool_run lowest checked b ch xh xw 0 s size yh yw S bits blank x ltac:(auto) Hx) as E.
  change Pool_Proofs.rgt with rgtb in E. rewrite E. reflexivity.
Qed.
Lemma pool_grad_value lowest bits checked s size b ch xh xw yh yw x gy : Pool_Spec.pool_sizes xh xw 0 s size yh yw ->
  Pool_Spec.pool_covers xh 0 s size yh -> Pool_Spec.pool_covers xw 0 s size yw -> (N.of_nat (b * ch * xh * xw) <= 2 ^ bits)%N ->
  has_shape [b; ch; xh; xw] x -> has_shape [b; ch; yh; yw] gy ->
  tcompute (TPoolGrad lowest bits checked 0 s size) [TA x; TA gy] =
    Some (TA (tab [b; ch; xh; xw] (fun j => rsum (indices [b; ch; yh; yw]) (fun i =>
      (if (snd (win lowest checked ch xh xw s size x i) =? ravel [b; ch; xh; xw] j)%nat then 1 else 0) * rget gy i)))).
Proof.
  intros S C1 C2 L Hx Hg. cbn [tcompute].
  assert (K : checked = true -> 0%nat = 0%nat) by auto.
  pose proof (Pool_Final.pool_run lowest checked b ch xh xw 0 s size yh yw S bits blank x K Hx) as E. change Pool_Proofs.rgt with rgtb in E.
  unfold Pool_Model.max_pool2d_grad_x. rewrite E. cbn [kbind snd].
  set (pos := fun ix => Pool_Model.float_index bits (snd (Pool_Final.the_window lowest checked ch xh xw 0 s size x ix))).
  assert (PI : forall ix, in_bounds [b; ch; yh; yw] ix -> (snd (Pool_Final.the_window lowest checked ch xh xw 0 s size x ix) < prod [b; ch; xh; xw])%nat).
  { intros ix Hi. apply (Pool_Final.window_pos lowest checked b ch xh xw 0 s size yh yw S); auto.
    destruct S as (_ & P1 & _ & _ & F1 & F2 & _). destruct ix as [|i0 [|i1 [|i2 [|i3 [|]]]]]; inversion Hi as [|? ? ? ? A1 H1]; subst; inversion H1 as [|? ? ? ? A2 H2]; subst;
      inversion H2 as [|? ? ? ? A3 H3]; subst; inversion H3 as [|? ? ? ? A4 H4]; subst; try (inversion H4; fail).
    apply F1 in A3. apply F2 in A4. cbn [prod fold_right]. assert (0 < xh)%nat by lia. assert (0 < xw)%nat by lia. simpl. repeat apply Nat.mul_pos_pos; lia. }
  assert (PE : forall ix, in_bounds [b; ch; yh; yw] ix -> pos ix = snd (Pool_Final.the_window lowest checked ch xh xw 0 s size x ix)).
  { intros ix Hi. unfold pos. apply (P_Pool.positions_exact bits b ch xh xw); auto. }
  destruct (Pool_Final.grad_run checked b ch xh xw 0 s size yh yw gy pos) as (gx & EG & HG & G).
  - destruct S as (_ & _ & P3 & _ & _ & _ & Z1 & _). apply Pool_Final.in_size_covers; auto; intros _; simpl; apply Nat.le_0_l.
  - destruct S as (_ & _ & _ & P4 & _ & _ & _ & Z2). apply Pool_Final.in_size_covers; auto; intros _; simpl; apply Nat.le_0_l.
  - exact Hg.
  - intros ix Hi. rewrite PE by exact Hi. auto.
  - rewrite EG. cbn [kA kok otA option_map]. do 2 f_equal. apply tab_eq; [exact HG|]. intros j Hj.
    rewrite <- (Pool_Final.get_ravel b ch xh xw gx j HG), G by (apply ravel_lt; exact Hj). apply rsum_ext. intros i Hi. apply indices_in in Hi. rewrite PE by exact Hi.
    unfold win. destruct (_ =? _)%nat; lra.
Qed.
