(** Properties C37-C39, C51-C53: two-dimensional convolutions. *)
From Coq Require Import List Arith ZArith Bool Lia Reals Lra RealField.
Import ListNotations.
From Verif Require Import Eval_Proofs Array_Model Array_Proofs Array_Sum Vjp_Spec Vjp_Proofs Dot_Spec Dot_Proofs Kernel_Model Kernel_Proofs Conv_Model Conv_Loops Conv_Spec Conv_Proofs Conv_Forward Conv_Backward Conv_Filter.

Notation rconv2d := (conv2d 0%R Rplus Rmult).
Notation rconv2d_transpose := (conv2d_transpose 0%R Rplus Rmult).
Notation rconv2d_with_cols := (conv2d_with_cols 0%R Rplus Rmult).

Lemma sizes_h xch ych xh xw kh kw p s d yh yw : conv_sizes xch ych xh xw kh kw p s d yh yw -> u_out_size xh p s d kh = KOk yh.
Proof. intros (P & H & _). apply u_out_size_ok. tauto. Qed.
Lemma sizes_w xch ych xh xw kh kw p s d yh yw : conv_sizes xch ych xh xw kh kw p s d yh yw -> u_out_size xw p s d kw = KOk yw.
Proof. intros (P & _ & H & _). apply u_out_size_ok. tauto. Qed.
Lemma sizes_fit xch ych xh xw kh kw p s d yh yw : conv_sizes xch ych xh xw kh kw p s d yh yw ->
  in_i32 [xh + 2 * p + s; xw + 2 * p + s; xh * xw; xch * kw * kh * yh * yw; ych * yh * yw].
Proof. intros (_ & _ & _ & H). exact H. Qed.
Lemma sizes_fit4 xch ych xh xw kh kw p s d yh yw : conv_sizes xch ych xh xw kh kw p s d yh yw ->
  in_i32 [xh + 2 * p + s; xw + 2 * p + s; xh * xw; xch * kw * kh * yh * yw].
Proof. intros (_ & _ & _ & H). unfold in_i32 in *. rewrite Forall_forall in *. intros a Ha. apply H. simpl in Ha |- *. tauto. Qed.
Lemma sizes_fit2 xch ych xh xw kh kw p s d yh yw : conv_sizes xch ych xh xw kh kw p s d yh yw -> in_i32 [xh + 2 * p + s; xw + 2 * p + s].
Proof. intros (_ & _ & _ & H). unfold in_i32 in *. rewrite Forall_forall in *. intros a Ha. apply H. simpl in Ha |- *. tauto. Qed.

(** ** C37 *)
Theorem C37_value : forall (batch xch ych xh xw kh kw p s d yh yw : nat) (uninit : nat -> R) (x w : arr R),
  conv_sizes xch ych xh xw kh kw p s d yh yw ->
  has_shape [batch; xch; xh; xw] x -> has_shape [ych; xch; kh; kw] w ->
  exists y cols, rconv2d uninit p s d x w = KOk (y, cols) /\ has_shape [batch; ych; yh; yw] y /\
    forall b o i j, b < batch -> o < ych -> i < yh -> j < yw ->
      aget 0%R y [b; o; i; j] = correlation xch kh kw p s d x w b o i j.
Proof.
  intros batch xch ych xh xw kh kw p s d yh yw u x w S Hx Hw.
  rewrite (conv2d_value batch xch ych xh xw kh kw p s d yh yw u (sizes_h _ _ _ _ _ _ _ _ _ _ _ S) (sizes_w _ _ _ _ _ _ _ _ _ _ _ S) (sizes_fit _ _ _ _ _ _ _ _ _ _ _ S)); [|destruct S; tauto|exact Hx|exact Hw].
  eexists. eexists. split; [reflexivity|]. split; [apply tab_has_shape|]. intros b o i j Hb Ho Hi Hj. rewrite aget_tab by (repeat constructor; assumption). reflexivity.
Qed.
Print Assumptions C37_value.

(** The second result serves for other filters of the same sizes. *)
Theorem C37_columns : forall (batch xch ych xh xw kh kw p s d yh yw : nat) (uninit uninit' : nat -> R) (x w w' : arr R) y cols,
  conv_sizes xch ych xh xw kh kw p s d yh yw ->
  has_shape [batch; xch; xh; xw] x -> has_shape [ych; xch; kh; kw] w -> has_shape [ych; xch; kh; kw] w' ->
  rconv2d uninit p s d x w = KOk (y, cols) ->
  exists y', rconv2d_with_cols uninit' cols w' = KOk y' /\ kok (rconv2d uninit p s d x w') = Some (y', cols).
Proof.
  intros batch xch ych xh xw kh kw p s d yh yw u u' x w w' y cols S Hx Hw Hw' E.
  rewrite (conv2d_value batch xch ych xh xw kh kw p s d yh yw u (sizes_h _ _ _ _ _ _ _ _ _ _ _ S) (sizes_w _ _ _ _ _ _ _ _ _ _ _ S) (sizes_fit _ _ _ _ _ _ _ _ _ _ _ S)) in E; [|destruct S; tauto|exact Hx|exact Hw].
  apply KOk_inj in E. apply (f_equal snd) in E. cbn [snd] in E. fold (cols_array batch xch kh kw yh yw p s d x) in E. subst cols.
  exists (conv_array batch xch ych kh kw yh yw p s d x w'). split.
  - apply conv2d_with_cols_value; [destruct S; tauto|exact Hw'].
  - rewrite (conv2d_value batch xch ych xh xw kh kw p s d yh yw u (sizes_h _ _ _ _ _ _ _ _ _ _ _ S) (sizes_w _ _ _ _ _ _ _ _ _ _ _ S) (sizes_fit _ _ _ _ _ _ _ _ _ _ _ S)); [reflexivity|destruct S; tauto|exact Hx|exact Hw'].
Qed.
Print Assumptions C37_columns.

(** Different numbers of channels: an error, not a panic. *)
Theorem C37_channels : forall batch xch xh xw ych wch kh kw p s d (uninit : nat -> R) x w,
  a_shape x = [batch; xch; xh; xw] -> a_shape w = [ych; wch; kh; kw] -> xch <> wch -> rconv2d uninit p s d x w = KErr.
Proof. intros. unfold conv2d. rewrite H, H0. destruct (Nat.eqb_spec xch wch); [contradiction|]. reflexivity. Qed.
Print Assumptions C37_channels.

Lemma in_size_covers checked y p s d k x : 0 < s -> 0 < y -> 0 < k -> covers x p s d k y -> (Z.of_nat (x + 2 * p + s) < 2 ^ 31)%Z ->
  (checked = true -> 2 * p <= s * (y - 1)) -> u_in_size checked y p s d k = KOk x.
Proof.
  intros Hs Hy Hk C F Hc. unfold covers in C. unfold u_in_size. destruct checked.
  - specialize (Hc eq_refl). unfold kbind, usub. destruct (Nat.leb_spec 1 y); [|lia]. destruct (Nat.leb_spec (2 * p) (s * (y - 1))); [|lia].
    destruct (Nat.leb_spec 1 k); [|lia]. f_equal. lia.
  - f_equal. replace (z s * (z y - 1) - 2 * z p + (z d * (z k - 1) + 1))%Z with (z x); [rewrite Z.mod_small by lia; lia|].
    assert (Q : z (s * (y - 1) + d * (k - 1) + 1) = z (x + 2 * p)) by (rewrite C; reflexivity).
    rewrite !Nat2Z.inj_add, !Nat2Z.inj_mul, !Nat2Z.inj_sub in Q by lia. lia.
Qed.

(** The transposed convolution, for sizes the kernel covers. *)
Lemma transpose_run : forall (checked : bool) (batch xch ych xh xw kh kw p s d yh yw : nat) (uninit : nat -> R) (y w : arr R),
  conv_sizes xch ych xh xw kh kw p s d yh yw -> covers xh p s d kh yh -> covers xw p s d kw yw ->
  (checked = true -> 2 * p <= s * (yh - 1) /\ 2 * p <= s * (yw - 1)) -> 0 < batch ->
  has_shape [batch; ych; yh; yw] y -> has_shape [ych; xch; kh; kw] w ->
  rconv2d_transpose uninit checked p s d y w = KOk (tab [batch; xch; xh; xw] (hit_sum batch xch xh xw kh kw p s d yh yw (cols_of ych w y))).
Proof.
  intros checked batch xch ych xh xw kh kw p s d yh yw u y w S Ch Cw Ck Pb Hy Hw. pose proof (sizes_fit2 _ _ _ _ _ _ _ _ _ _ _ S) as F2.
  pose proof (sizes_h _ _ _ _ _ _ _ _ _ _ _ S) as Sh. pose proof (sizes_w _ _ _ _ _ _ _ _ _ _ _ S) as Sw'. pose proof (sizes_fit4 _ _ _ _ _ _ _ _ _ _ _ S) as F4.
  destruct S as (P & _). assert (Hs : 0 < s) by tauto.
  apply (conv2d_transpose_value batch xch ych xh xw kh kw p s d yh yw u checked Hs); auto; [tauto| |].
  - apply in_size_covers; try tauto. apply (Forall_inv F2).
  - apply in_size_covers; try tauto. apply (Forall_inv (Forall_inv_tail F2)).
Qed.
Theorem C37_transposed_value : forall (checked : bool) (batch xch ych xh xw kh kw p s d yh yw : nat) (uninit : nat -> R) (y w : arr R),
  conv_sizes xch ych xh xw kh kw p s d yh yw -> covers xh p s d kh yh -> covers xw p s d kw yw ->
  (checked = true -> 2 * p <= s * (yh - 1) /\ 2 * p <= s * (yw - 1)) -> 0 < batch ->
  has_shape [batch; ych; yh; yw] y -> has_shape [ych; xch; kh; kw] w ->
  exists x, rconv2d_transpose uninit checked p s d y w = KOk x /\ has_shape [batch; xch; xh; xw] x /\
    forall b c r q, b < batch -> c < xch -> r < xh -> q < xw ->
      aget 0%R x [b; c; r; q] = transposed ych kh kw yh yw p s d y w b c r q.
Proof.
  intros checked batch xch ych xh xw kh kw p s d yh yw u y w S Ch Cw Ck Pb Hy Hw. eexists.
  split; [exact (transpose_run checked batch xch ych xh xw kh kw p s d yh yw u y w S Ch Cw Ck Pb Hy Hw)|]. split; [apply tab_has_shape|].
  intros b c r q Hb Hc Hr Hq. rewrite aget_tab by (repeat constructor; assumption). apply hit_sum_transposed. repeat constructor; assumption.
Qed.
Print Assumptions C37_transposed_value.

(** conv2d_transpose is the adjoint of conv2d. *)
Theorem C37_adjoint : forall (checked : bool) (batch xch ych xh xw kh kw p s d yh yw : nat) (uninit uninit' : nat -> R) (x y w : arr R) y' cols x',
  conv_sizes xch ych xh xw kh kw p s d yh yw -> covers xh p s d kh yh -> covers xw p s d kw yw ->
  (checked = true -> 2 * p <= s * (yh - 1) /\ 2 * p <= s * (yw - 1)) -> 0 < batch ->
  has_shape [batch; xch; xh; xw] x -> has_shape [batch; ych; yh; yw] y -> has_shape [ych; xch; kh; kw] w ->
  rconv2d uninit p s d x w = KOk (y', cols) -> rconv2d_transpose uninit' checked p s d y w = KOk x' ->
  dot y y' = dot x' x.
Proof.
  intros checked batch xch ych xh xw kh kw p s d yh yw u u' x y w y' cols x' S Ch Cw Ck Pb Hx Hy Hw E E'.
  rewrite (conv2d_value batch xch ych xh xw kh kw p s d yh yw u (sizes_h _ _ _ _ _ _ _ _ _ _ _ S) (sizes_w _ _ _ _ _ _ _ _ _ _ _ S) (sizes_fit _ _ _ _ _ _ _ _ _ _ _ S)) in E; [|destruct S; tauto|exact Hx|exact Hw].
  apply KOk_inj in E. apply (f_equal fst) in E. cbn [fst] in E. rewrite (transpose_run checked batch xch ych xh xw kh kw p s d yh yw) in E' by auto. apply KOk_inj in E'. subst y' x'.
  rewrite (dot_transpose batch xch ych xh xw kh kw p s d yh yw) by exact Hx. rewrite (dot_sum [batch; ych; yh; yw]) by (exact Hy || apply tab_has_shape).
  apply sum_ext. intros i Hi. apply indices_in in Hi. rewrite aget_tab by exact Hi. assert (L : length i = 4) by (rewrite (in_bounds_length _ _ Hi); reflexivity).
  destruct i as [|b [|o [|i [|j [|? ?]]]]]; try discriminate L. reflexivity.
Qed.
Print Assumptions C37_adjoint.

(** A 5 x 4 image of 2 channels, 3 filters of 3 x 2, padding 1, stride 2. *)
Lemma conv_example_sizes : conv_sizes 2 3 5 4 3 2 1 2 1 3 3 /\ covers 5 1 2 1 3 3 /\ 2 * 1 <= 2 * (3 - 1).
Proof.
  split; [|split; [reflexivity|lia]]. split; [lia|]. split; [|split].
  - intros i. lia.
  - intros i. lia.
  - repeat constructor.
Qed.
Lemma conv_example_covers : conv_sizes 2 3 5 4 3 2 1 1 2 3 4 /\ covers 5 1 1 2 3 3 /\ covers 4 1 1 2 2 4 /\ 2 * 1 <= 1 * (3 - 1) /\ 2 * 1 <= 1 * (4 - 1).
Proof.
  split; [|split; [|split]]; [|reflexivity|reflexivity|lia]. split; [lia|]. split; [|split].
  - intros i. lia.
  - intros i. lia.
  - repeat constructor.
Qed.
Example C37_hypotheses_met : exists y cols x',
  let x := Arr [1; 2; 5; 4] (map INR (seq 0 40)) in let w := Arr [3; 2; 3; 2] (map INR (seq 0 36)) in
  rconv2d (fun _ => 7%R) 1 1 2 x w = KOk (y, cols) /\ has_shape [1; 3; 3; 4] y /\
  rconv2d_transpose (fun _ => 7%R) true 1 1 2 y w = KOk x' /\ dot y y = dot x' x.
Proof.
  destruct conv_example_covers as (S & C1 & C2 & P1 & P2).
  destruct (C37_value 1 2 3 5 4 3 2 1 1 2 3 4 (fun _ => 7%R) (Arr [1; 2; 5; 4] (map INR (seq 0 40))) (Arr [3; 2; 3; 2] (map INR (seq 0 36))) S) as (y & cols & E & Hy & _); [split; reflexivity|split; reflexivity|].
  destruct (C37_transposed_value true 1 2 3 5 4 3 2 1 1 2 3 4 (fun _ => 7%R) y (Arr [3; 2; 3; 2] (map INR (seq 0 36))) S C1 C2) as (x' & E' & Hx' & _); [auto|lia|exact Hy|split; reflexivity|].
  exists y, cols, x'. cbv zeta. split; [exact E|]. split; [exact Hy|]. split; [exact E'|].
  apply (C37_adjoint true 1 2 3 5 4 3 2 1 1 2 3 4 (fun _ => 7%R) (fun _ => 7%R) (Arr [1; 2; 5; 4] (map INR (seq 0 40))) y (Arr [3; 2; 3; 2] (map INR (seq 0 36))) y cols x'); auto; split; reflexivity.
Qed.

(** ** C38 *)
Lemma covers_divides x p s d k n : 0 < s -> 0 < n -> placements x p s d k n -> (covers x p s d k n <-> Nat.divide s (x + 2 * p - (d * (k - 1) + 1))).
Proof.
  intros Hs Hn P. unfold covers. assert (H0 : (n - 1) * s + d * (k - 1) < x + 2 * p) by (apply P; lia).
  assert (H1 : ~ (n * s + d * (k - 1) < x + 2 * p)) by (intros Q; apply P in Q; lia).
  assert (E : n * s = (n - 1) * s + s) by (replace n with (n - 1 + 1) at 1 by lia; lia). rewrite (Nat.mul_comm s). split.
  - intros C. exists (n - 1). clear - C. set (a := (n - 1) * s) in *. set (b := d * (k - 1)) in *. clearbody a b. lia.
  - intros (q & Q). set (b := d * (k - 1)) in *. clearbody b. assert (q = n - 1); [|subst q; set (a := (n - 1) * s) in *; clearbody a; lia].
    destruct (Nat.lt_trichotomy q (n - 1)) as [L|[L|L]]; [|exact L|].
    + assert ((q + 1) * s <= (n - 1) * s) by (apply Nat.mul_le_mono_r; lia). lia.
    + assert (n * s <= q * s) by (apply Nat.mul_le_mono_r; lia). lia.
Qed.
(** The gradient with respect to the image has the image's shape exactly when the
    stride divides the range of the kernel in both directions. *)
Theorem C38_shape : forall (checked : bool) (batch xch ych xh xw kh kw p s d yh yw : nat) (uninit : nat -> R) (gy w gx : arr R),
  conv_sizes xch ych xh xw kh kw p s d yh yw ->
  has_shape [batch; ych; yh; yw] gy -> has_shape [ych; xch; kh; kw] w ->
  conv2d_grad_x 0%R Rplus Rmult uninit checked p s d gy w = KOk gx ->
  (a_shape gx = [batch; xch; xh; xw] <->
   Nat.divide s (xh + 2 * p - (d * (kh - 1) + 1)) /\ Nat.divide s (xw + 2 * p - (d * (kw - 1) + 1))).
Proof.
  intros checked batch xch ych xh xw kh kw p s d yh yw u gy w gx S Hg Hw E. pose proof (sizes_fit2 _ _ _ _ _ _ _ _ _ _ _ S) as F2.
  destruct S as (P & Ph & Pw & F). unfold conv2d_grad_x, conv2d_transpose in E. rewrite (proj1 Hg), (proj1 Hw) in E.
  destruct (u_in_size checked yh p s d kh) as [xh'| | |] eqn:Eh; try discriminate E. cbn [kbind] in E.
  destruct (u_in_size checked yw p s d kw) as [xw'| | |] eqn:Ew; try discriminate E. cbn [kbind] in E.
  destruct (negb (ych =? ych)); [discriminate E|]. destruct (negb (all_fit _)) eqn:AF; [discriminate E|].
  destruct ((batch =? 0) || _ || _); [discriminate E|]. destruct (rexec _ _) as [m|]; [|discriminate E]. apply KOk_inj in E. subst gx. cbn [a_shape].
  apply negb_false_iff in AF. unfold all_fit in AF. rewrite forallb_forall in AF.
  assert (Fxh : (z (xh' + 2 * p + s) < 2 ^ 31)%Z) by (specialize (AF (z (xh' + 2 * p + s)) ltac:(simpl; auto)); apply andb_true_iff in AF; rewrite Z.ltb_lt in AF; tauto).
  assert (Fxw : (z (xw' + 2 * p + s) < 2 ^ 31)%Z) by (specialize (AF (z (xw' + 2 * p + s)) ltac:(simpl; auto)); apply andb_true_iff in AF; rewrite Z.ltb_lt in AF; tauto).
  assert (B : forall x k y, 0 < y -> 0 < k -> placements x p s d k y -> (z (x + 2 * p + s) < 2 ^ 31)%Z -> (z s * (z y - 1) + z d * (z k - 1) + 1 < 2 ^ 63)%Z).
  { intros x k y Hy Hk Pl Fx. assert (Q : (y - 1) * s + d * (k - 1) < x + 2 * p) by (apply Pl; lia). 
    assert (Q' : (z ((y - 1) * s + d * (k - 1)) < z (x + 2 * p))%Z) by lia. rewrite Nat2Z.inj_add, !Nat2Z.inj_mul, !Nat2Z.inj_sub in Q' by lia. lia. }
  pose proof (u_in_size_ok checked yh p s d kh xh' ltac:(tauto) ltac:(tauto) ltac:(tauto) Eh ltac:(lia) (B xh kh yh ltac:(tauto) ltac:(tauto) Ph (Forall_inv F2)) ltac:(lia)) as Q1.
  pose proof (u_in_size_ok checked yw p s d kw xw' ltac:(tauto) ltac:(tauto) ltac:(tauto) Ew ltac:(lia) (B xw kw yw ltac:(tauto) ltac:(tauto) Pw (Forall_inv (Forall_inv_tail F2))) ltac:(lia)) as Q2.
  rewrite <- (covers_divides xh p s d kh yh), <- (covers_divides xw p s d kw yw) by tauto. unfold covers. rewrite Q1, Q2. split.
  - intros Q. injection Q as -> ->. auto.
  - intros [-> ->]%(fun H : xh' + 2 * p = xh + 2 * p /\ xw' + 2 * p = xw + 2 * p => conj (proj1 (Nat.add_cancel_r xh' xh (2 * p)) (proj1 H)) (proj1 (Nat.add_cancel_r xw' xw (2 * p)) (proj2 H))). reflexivity.
Qed.
Print Assumptions C38_shape.

(** With overflow checks and much padding the size computation panics although
    the gradient exists. *)
Theorem C38_checked_padding_panics : forall (batch ych yh yw xch kh kw p s d : nat) (uninit : nat -> R) (gy w : arr R),
  a_shape gy = [batch; ych; yh; yw] -> a_shape w = [ych; xch; kh; kw] -> 0 < yh -> s * (yh - 1) < 2 * p ->
  conv2d_grad_x 0%R Rplus Rmult uninit true p s d gy w = KPanic.
Proof.
  intros batch ych yh yw xch kh kw p s d u gy w Sg Sw Hy Hp. unfold conv2d_grad_x, conv2d_transpose. rewrite Sg, Sw. unfold u_in_size, usub.
  destruct (Nat.leb_spec 1 yh); [|lia]. cbn [kbind]. destruct (Nat.leb_spec (2 * p) (s * (yh - 1))); [lia|]. reflexivity.
Qed.
Print Assumptions C38_checked_padding_panics.

(** Witness: a 4 x 4 image, a 1 x 1 kernel, stride 2: the gradient is 3 x 3. *)
Theorem C38_inexact_stride_refuted :
  exists (p s d : nat) (x w gy gx y : arr R) cols,
    rconv2d (fun _ => 0%R) p s d x w = KOk (y, cols) /\ a_shape gy = a_shape y /\ wf gy /\
    conv2d_grad_x 0%R Rplus Rmult (fun _ => 0%R) true p s d gy w = KOk gx /\
    a_shape x = [1; 1; 4; 4] /\ a_shape gx = [1; 1; 3; 3].
Proof.
  assert (S4 : conv_sizes 1 1 4 4 1 1 0 2 1 2 2) by (split; [lia|]; split; [intros i; lia|]; split; [intros i; lia|]; repeat constructor).
  assert (S3 : conv_sizes 1 1 3 3 1 1 0 2 1 2 2) by (split; [lia|]; split; [intros i; lia|]; split; [intros i; lia|]; repeat constructor).
  set (x := Arr [1; 1; 4; 4] (repeat 1%R 16)). set (w := Arr [1; 1; 1; 1] [1%R]). set (gy := Arr [1; 1; 2; 2] (repeat 1%R 4)).
  destruct (C37_value 1 1 1 4 4 1 1 0 2 1 2 2 (fun _ => 0%R) x w S4) as (y & cols & E & Hy & _); [split; reflexivity|split; reflexivity|].
  destruct (C37_transposed_value true 1 1 1 3 3 1 1 0 2 1 2 2 (fun _ => 0%R) gy w S3) as (gx & E' & Hgx & _); [reflexivity|reflexivity|lia|lia|split; reflexivity|split; reflexivity|].
  exists 0, 2, 1, x, w, gy, gx, y, cols. split; [exact E|]. split; [rewrite (proj1 Hy); reflexivity|]. split; [reflexivity|]. split; [exact E'|]. split; [reflexivity|exact (proj1 Hgx)].
Qed.
Print Assumptions C38_inexact_stride_refuted.
Example C38_hypotheses_met : exists gx,
  conv2d_grad_x 0%R Rplus Rmult (fun _ => 0%R) true 1 1 2 (Arr [2; 3; 3; 4] (map INR (seq 0 72))) (Arr [3; 2; 3; 2] (map INR (seq 0 36))) = KOk gx /\
  a_shape gx = [2; 2; 5; 4] /\ Nat.divide 1 (5 + 2 * 1 - (2 * (3 - 1) + 1)) /\
  conv2d_grad_x 0%R Rplus Rmult (fun _ => 0%R) true 2 1 1 (Arr [1; 1; 4; 4] (map INR (seq 0 16))) (Arr [1; 1; 5; 5] (map INR (seq 0 25))) = KPanic.
Proof.
  destruct conv_example_covers as (S & C1 & C2 & P1 & P2).
  destruct (C37_transposed_value true 2 2 3 5 4 3 2 1 1 2 3 4 (fun _ => 0%R) (Arr [2; 3; 3; 4] (map INR (seq 0 72))) (Arr [3; 2; 3; 2] (map INR (seq 0 36))) S C1 C2) as (x' & E' & Hx' & _); [auto|lia|split; reflexivity|split; reflexivity|].
  exists x'. split; [exact E'|]. split; [exact (proj1 Hx')|]. split; [exists 2; reflexivity|].
  apply (C38_checked_padding_panics 1 1 4 4 1 5 5); try reflexivity; lia.
Qed.

(** ** C39 *)
(** Whatever the schedule of the batch items, the memory ends up the same.  Any
    element type with any operations (no algebraic law is used). *)
Theorem C39_conv2d : forall {A : Type} (zero : A) (add mul : A -> A -> A) (batch xch ych xh xw kh kw p s d yh yw : nat) (m : mem) (schedule : list instr),
  conv_sizes xch ych xh xw kh kw p s d yh yw ->
  interleaving (map (conv2d_item xch ych xh xw kh kw p s d yh yw) (seq 0 batch)) schedule ->
  exec zero add mul m schedule = exec zero add mul m (flat_map (conv2d_item xch ych xh xw kh kw p s d yh yw) (seq 0 batch)).
Proof.
  intros A zero add mul batch xch ych xh xw kh kw p s d yh yw m r S I. rewrite flat_map_concat_map. apply interleaving_exec; [exact I|].
  apply (items_stay_independent (xch * kw * kh * yh * yw) (ych * yh * yw)). intros b i Hi.
  exact (conv2d_item_stays xch ych xh xw kh kw p s d yh yw (sizes_h _ _ _ _ _ _ _ _ _ _ _ S) (sizes_w _ _ _ _ _ _ _ _ _ _ _ S) (sizes_fit2 _ _ _ _ _ _ _ _ _ _ _ S) b i Hi).
Qed.
Print Assumptions C39_conv2d.
Theorem C39_conv2d_transpose : forall {A : Type} (zero : A) (add mul : A -> A -> A) (batch xch ych xh xw kh kw p s d yh yw : nat) (m : mem) (schedule : list instr),
  conv_sizes xch ych xh xw kh kw p s d yh yw ->
  interleaving (map (conv2d_transpose_item xch ych xh xw kh kw p s d yh yw) (seq 0 batch)) schedule ->
  exec zero add mul m schedule = exec zero add mul m (flat_map (conv2d_transpose_item xch ych xh xw kh kw p s d yh yw) (seq 0 batch)).
Proof.
  intros A zero add mul batch xch ych xh xw kh kw p s d yh yw m r S I. rewrite flat_map_concat_map. apply interleaving_exec; [exact I|].
  apply (items_stay_independent (xch * kh * kw * yh * yw) (xch * xh * xw)). intros b i Hi.
  exact (conv2d_transpose_item_stays xch ych xh xw kh kw p s d yh yw (sizes_h _ _ _ _ _ _ _ _ _ _ _ S) (sizes_w _ _ _ _ _ _ _ _ _ _ _ S) (sizes_fit2 _ _ _ _ _ _ _ _ _ _ _ S) b i Hi).
Qed.
Print Assumptions C39_conv2d_transpose.
Theorem C39_im2col_batch : forall {A : Type} (zero : A) (add mul : A -> A -> A) (batch xch ych xh xw kh kw p s d yh yw : nat) (m : mem) (schedule : list instr),
  conv_sizes xch ych xh xw kh kw p s d yh yw ->
  interleaving (im2col_batch xch xh xw kh kw p s d yh yw batch) schedule ->
  exec zero add mul m schedule = exec zero add mul m (concat (im2col_batch xch xh xw kh kw p s d yh yw batch)).
Proof.
  intros A zero add mul batch xch ych xh xw kh kw p s d yh yw m r S I. apply interleaving_exec; [exact I|]. unfold im2col_batch.
  apply (items_stay_independent (xch * kw * kh * yh * yw) (ych * yh * yw)). intros b i Hi.
  exact (im2col_stays xch ych xh xw kh kw p s d yh yw (sizes_h _ _ _ _ _ _ _ _ _ _ _ S) (sizes_w _ _ _ _ _ _ _ _ _ _ _ S) (sizes_fit2 _ _ _ _ _ _ _ _ _ _ _ S) _ b i Hi).
Qed.
Print Assumptions C39_im2col_batch.
Theorem C39_conv2d_with_cols : forall {A : Type} (zero : A) (add mul : A -> A -> A) (batch xch ych kh kw yh yw : nat) (m : mem) (schedule : list instr),
  let item b := gemm_call ych (xch * kh * kw) (yh * yw) (FILTER, 0%Z) (Z.of_nat (xch * kh * kw)) 1%Z (COLS, Z.of_nat (b * (xch * kw * kh * yh * yw))) (Z.of_nat (yh * yw)) 1%Z false
    (OUT, Z.of_nat (b * (ych * yh * yw))) (Z.of_nat (yh * yw)) 1%Z in
  interleaving (map item (seq 0 batch)) schedule -> exec zero add mul m schedule = exec zero add mul m (flat_map item (seq 0 batch)).
Proof.
  intros A zero add mul batch xch ych kh kw yh yw m r item I. rewrite flat_map_concat_map. apply interleaving_exec; [exact I|].
  apply (items_stay_independent (xch * kw * kh * yh * yw) (ych * yh * yw)). intros b i Hi. exact (conv_gemm_stays xch ych kh kw yh yw b i Hi).
Qed.
Print Assumptions C39_conv2d_with_cols.
(** Two images of one pixel, scheduled alternately: the items are not empty and
    the schedule is not the sequential one. *)
Example C39_hypotheses_met : exists schedule,
  conv_sizes 1 1 1 1 1 1 0 1 1 1 1 /\
  interleaving (map (conv2d_item 1 1 1 1 1 1 0 1 1 1 1) (seq 0 2)) schedule /\
  schedule <> flat_map (conv2d_item 1 1 1 1 1 1 0 1 1 1 1) (seq 0 2) /\
  exec 0%Z Z.add Z.mul [[5; 6]; [2]; [0; 0]; [0; 0]]%Z schedule = Some [[5; 6]; [2]; [5; 6]; [10; 12]]%Z.
Proof.
  eexists. split; [split; [lia|]; split; [intros i; lia|]; split; [intros i; lia|]; repeat constructor|]. split.
  - cbv [seq map]. match goal with |- interleaving [?a; ?b] _ => let a' := eval vm_compute in a in let b' := eval vm_compute in b in change a with a'; change b with b' end.
    apply (il_step [_] _ _ []). cbn [app]. apply (il_step [] _ _ [_]). cbn [app]. apply (il_step [_] _ _ []). cbn [app]. apply (il_step [] _ _ [_]). cbn [app].
    apply il_done. repeat constructor.
  - split; [vm_compute; discriminate|reflexivity].
Qed.
