(** Properties C51-C53: gradients of the convolutions. *)
From Coq Require Import List Arith ZArith Bool Lia Reals Lra RealField.
Import ListNotations.
From Verif Require Import Eval_Proofs Array_Model Array_Proofs Array_Sum Vjp_Spec Vjp_Proofs Dot_Spec Dot_Proofs Arith_Final Kernel_Model Kernel_Proofs Conv_Model Conv_Loops Conv_Spec Conv_Proofs Conv_Forward Conv_Backward Conv_Filter P_Conv.

Lemma dot_comm a b : dot a b = dot b a.
Proof.
  unfold dot. f_equal. generalize (a_data b). induction (a_data a) as [|x l IH]; intros [|y m]; simpl; try reflexivity. rewrite (IH m). f_equal. apply Rmult_comm.
Qed.
(** The first result of conv2d, if it returns. *)
Definition conv_result (r : kres (arr R * arr R)) : option (arr R) := option_map fst (kok r).

Lemma conv_run batch xch ych xh xw kh kw p s d yh yw u x w : conv_sizes xch ych xh xw kh kw p s d yh yw ->
  has_shape [batch; xch; xh; xw] x -> has_shape [ych; xch; kh; kw] w ->
  rconv2d u p s d x w = KOk (conv_array batch xch ych kh kw yh yw p s d x w, cols_array batch xch kh kw yh yw p s d x).
Proof.
  intros S Hx Hw. apply (conv2d_value batch xch ych xh xw kh kw p s d yh yw u (sizes_h _ _ _ _ _ _ _ _ _ _ _ S) (sizes_w _ _ _ _ _ _ _ _ _ _ _ S) (sizes_fit _ _ _ _ _ _ _ _ _ _ _ S)); [destruct S; tauto|exact Hx|exact Hw].
Qed.
Definition transposed_array (batch xch xh xw kh kw p s d yh yw ych : nat) (w y : arr R) : arr R := tab [batch; xch; xh; xw] (hit_sum batch xch xh xw kh kw p s d yh yw (cols_of ych w y)).
Lemma dot_conv batch xch ych xh xw kh kw p s d yh yw x w y : has_shape [batch; xch; xh; xw] x -> has_shape [batch; ych; yh; yw] y ->
  dot y (conv_array batch xch ych kh kw yh yw p s d x w) = dot (transposed_array batch xch xh xw kh kw p s d yh yw ych w y) x.
Proof.
  intros Hx Hy. unfold transposed_array. rewrite (dot_transpose batch xch ych xh xw kh kw p s d yh yw) by exact Hx. rewrite (dot_sum [batch; ych; yh; yw]) by (exact Hy || apply tab_has_shape).
  apply sum_ext. intros i Hi. apply indices_in in Hi. unfold conv_array. rewrite aget_tab by exact Hi. assert (L : length i = 4) by (rewrite (in_bounds_length _ _ Hi); reflexivity).
  destruct i as [|b [|o [|i [|j [|? ?]]]]]; try discriminate L. reflexivity.
Qed.

(** ** C51: conv2d *)
(** The image: when the kernel's places cover the padded image. *)
Theorem C51_image_gradient : forall (checked : bool) (batch xch ych xh xw kh kw p s d yh yw : nat) (uninit uninit' : nat -> R) (x w gy : arr R),
  conv_sizes xch ych xh xw kh kw p s d yh yw -> covers xh p s d kh yh -> covers xw p s d kw yw ->
  (checked = true -> 2 * p <= s * (yh - 1) /\ 2 * p <= s * (yw - 1)) -> 0 < batch ->
  has_shape [batch; xch; xh; xw] x -> has_shape [ych; xch; kh; kw] w -> has_shape [batch; ych; yh; yw] gy ->
  exists gx, conv2d_grad_x 0%R Rplus Rmult uninit checked p s d gy w = KOk gx /\
    vjp (fun x => conv_result (rconv2d uninit' p s d x w)) x gy gx.
Proof.
  intros checked batch xch ych xh xw kh kw p s d yh yw u u' x w gy S Ch Cw Ck Pb Hx Hw Hg. eexists.
  split; [exact (transpose_run checked batch xch ych xh xw kh kw p s d yh yw u gy w S Ch Cw Ck Pb Hg Hw)|].
  apply (vjp_adjoint _ _ _ _ (fun x => conv_array batch xch ych kh kw yh yw p s d x w)).
  - apply has_shape_wf in Hx. tauto.
  - apply tab_wf.
  - simpl. symmetry. exact (proj1 Hx).
  - intros x' Hx'. rewrite (proj1 Hx) in Hx'. rewrite (conv_run batch xch ych xh xw kh kw p s d yh yw) by auto. split; [reflexivity|]. rewrite (proj1 Hg). apply tab_has_shape.
  - intros x' Hx'. rewrite (proj1 Hx) in Hx'. apply dot_conv; auto.
Qed.
Print Assumptions C51_image_gradient.
(** The filter: for any stride. *)
Theorem C51_filter_gradient : forall (batch xch ych xh xw kh kw p s d yh yw : nat) (uninit uninit' : nat -> R) (x w gy : arr R),
  conv_sizes xch ych xh xw kh kw p s d yh yw -> 0 < batch ->
  has_shape [batch; xch; xh; xw] x -> has_shape [ych; xch; kh; kw] w -> has_shape [batch; ych; yh; yw] gy ->
  exists gw, conv2d_grad_w 0%R Rplus Rmult uninit p s d x w gy = KOk gw /\
    (forall o c ki kj, o < ych -> c < xch -> ki < kh -> kj < kw -> aget 0%R gw [o; c; ki; kj] = filter_gradient batch yh yw p s d x gy o c ki kj) /\
    vjp (fun w => conv_result (rconv2d uninit' p s d x w)) w gy gw.
Proof.
  intros batch xch ych xh xw kh kw p s d yh yw u u' x w gy S Pb Hx Hw Hg. exists (filter_array batch xch ych kh kw yh yw p s d x gy).
  split; [|split].
  - unfold conv2d_grad_w. rewrite (conv_run batch xch ych xh xw kh kw p s d yh yw) by auto. cbn [kbind snd]. apply conv2d_filter_grad_value; [exact Pb|exact Hg|exact (proj1 Hw)].
  - intros o c ki kj Ho Hc Hi Hj. unfold filter_array. rewrite aget_tab by (repeat constructor; assumption). reflexivity.
  - apply (vjp_adjoint _ _ _ _ (fun w => conv_array batch xch ych kh kw yh yw p s d x w)).
    + apply has_shape_wf in Hw. tauto.
    + apply tab_wf.
    + simpl. symmetry. exact (proj1 Hw).
    + intros w' Hw'. rewrite (proj1 Hw) in Hw'. rewrite (conv_run batch xch ych xh xw kh kw p s d yh yw) by auto. split; [reflexivity|]. rewrite (proj1 Hg). apply tab_has_shape.
    + intros w' Hw'. rewrite (proj1 Hw) in Hw'. symmetry. apply dot_filter; auto.
Qed.
Print Assumptions C51_filter_gradient.
(** When the stride does not divide the range, what is returned for the image is
    not its gradient (whatever the data). *)
Theorem C51_inexact_image_gradient_wrong : forall (checked : bool) (batch xch ych xh xw kh kw p s d yh yw : nat) (uninit uninit' : nat -> R) (x w gy gx : arr R),
  conv_sizes xch ych xh xw kh kw p s d yh yw ->
  ~ (covers xh p s d kh yh /\ covers xw p s d kw yw) ->
  has_shape [batch; xch; xh; xw] x -> has_shape [ych; xch; kh; kw] w -> has_shape [batch; ych; yh; yw] gy ->
  conv2d_grad_x 0%R Rplus Rmult uninit checked p s d gy w = KOk gx ->
  ~ vjp (fun x => conv_result (rconv2d uninit' p s d x w)) x gy gx.
Proof.
  intros checked batch xch ych xh xw kh kw p s d yh yw u u' x w gy gx S N Hx Hw Hg E V.
  apply N. destruct V as ((Sgx & _) & _). pose proof (proj1 (C38_shape checked batch xch ych xh xw kh kw p s d yh yw u gy w gx S Hg Hw E)) as Q.
  rewrite Sgx, (proj1 Hx) in Q. specialize (Q eq_refl). destruct S as (P & Ph & Pw & _). rewrite !covers_divides by tauto. exact Q.
Qed.
Print Assumptions C51_inexact_image_gradient_wrong.
(** An empty batch: the filter's gradient is whatever the memory contained. *)
Theorem C51_empty_batch_uninitialised : forall (xch ych xh xw kh kw p s d yh yw : nat) (uninit : nat -> R) (x w gy : arr R),
  conv_sizes xch ych xh xw kh kw p s d yh yw ->
  has_shape [0; xch; xh; xw] x -> has_shape [ych; xch; kh; kw] w -> has_shape [0; ych; yh; yw] gy ->
  exists gw, conv2d_grad_w 0%R Rplus Rmult uninit p s d x w gy = KOk gw /\ has_shape [ych; xch; kh; kw] gw /\
    forall k, k < ych * xch * kh * kw -> nth k (a_data gw) 0%R = uninit k.
Proof.
  intros xch ych xh xw kh kw p s d yh yw u x w gy S Hx Hw Hg.
  exists (Arr [ych; xch; kh; kw] (map u (seq 0 (ych * xch * kh * kw)))). split; [|split].
  - unfold conv2d_grad_w. rewrite (conv_run 0 xch ych xh xw kh kw p s d yh yw) by auto. cbn [kbind snd].
    apply (conv2d_filter_grad_empty u _ _ _ xch kw kh yh yw ych yh yw xch kh kw); [reflexivity|exact (proj1 Hg)|exact (proj1 Hw)].
  - split; [reflexivity|]. cbn [a_data]. rewrite map_length, seq_length. simpl prod. lia.
  - intros k Hk. cbn [a_data]. rewrite (nth_indep _ 0%R (u 0)) by (rewrite map_length, seq_length; exact Hk). rewrite map_nth, seq_nth by exact Hk. reflexivity.
Qed.
Print Assumptions C51_empty_batch_uninitialised.
Theorem C51_empty_batch_refuted : exists (uninit : nat -> R) (x w gy gw : arr R),
  has_shape [0; 1; 2; 2] x /\ has_shape [1; 1; 1; 1] w /\ has_shape [0; 1; 2; 2] gy /\
  conv2d_grad_w 0%R Rplus Rmult uninit 0 1 1 x w gy = KOk gw /\
  ~ vjp (fun w => conv_result (rconv2d uninit 0 1 1 x w)) w gy gw.
Proof.
  assert (S : conv_sizes 1 1 2 2 1 1 0 1 1 2 2) by (split; [lia|]; split; [intros i; lia|]; split; [intros i; lia|]; repeat constructor).
  set (x := Arr [0; 1; 2; 2] (@nil R)). set (w := Arr [1; 1; 1; 1] [0%R]). set (gy := Arr [0; 1; 2; 2] (@nil R)).
  destruct (C51_empty_batch_uninitialised 1 1 2 2 1 1 0 1 1 2 2 (fun _ => 5%R) x w gy S) as (gw & E & Hgw & G); [split; reflexivity|split; reflexivity|split; reflexivity|].
  exists (fun _ => 5%R), x, w, gy, gw. split; [split; reflexivity|]. split; [split; reflexivity|]. split; [split; reflexivity|]. split; [exact E|].
  intros (_ & V). destruct (V (Arr [1; 1; 1; 1] [1%R])) as (f & Hf & D); [split; reflexivity|].
  assert (E0 : forall t, dot gy (f t) = 0%R) by (intros t; unfold dot; simpl; reflexivity).
  assert (D0 : derivable_pt_lim (fun t => dot gy (f t)) 0%R 0%R) by (apply (derivable_ext (fun _ => 0%R)); [intros t; symmetry; apply E0|apply derivable_pt_lim_const]).
  pose proof (uniqueness_limite _ _ _ _ D D0) as Q. destruct gw as [sh l]. destruct Hgw as [Sg Lg]. cbn [a_shape a_data] in *.
  destruct l as [|a [|? ?]]; try discriminate Lg. specialize (G 0 ltac:(lia)). cbn [nth a_data] in G. subst a. unfold dot in Q. simpl in Q. lra.
Qed.
Print Assumptions C51_empty_batch_refuted.
Example C51_hypotheses_met : exists gx gw,
  let x := Arr [2; 2; 5; 4] (map INR (seq 0 80)) in let w := Arr [3; 2; 3; 2] (map INR (seq 0 36)) in let gy := Arr [2; 3; 3; 4] (map INR (seq 0 72)) in
  conv2d_grad_x 0%R Rplus Rmult (fun _ => 0%R) true 1 1 2 gy w = KOk gx /\ vjp (fun x => conv_result (rconv2d (fun _ => 1%R) 1 1 2 x w)) x gy gx /\
  conv2d_grad_w 0%R Rplus Rmult (fun _ => 0%R) 1 1 2 x w gy = KOk gw /\ vjp (fun w => conv_result (rconv2d (fun _ => 1%R) 1 1 2 x w)) w gy gw.
Proof.
  destruct conv_example_covers as (S & C1 & C2 & P1 & P2).
  destruct (C51_image_gradient true 2 2 3 5 4 3 2 1 1 2 3 4 (fun _ => 0%R) (fun _ => 1%R) (Arr [2; 2; 5; 4] (map INR (seq 0 80))) (Arr [3; 2; 3; 2] (map INR (seq 0 36))) (Arr [2; 3; 3; 4] (map INR (seq 0 72))) S C1 C2) as (gx & E1 & V1); [auto|lia|split; reflexivity|split; reflexivity|split; reflexivity|].
  destruct (C51_filter_gradient 2 2 3 5 4 3 2 1 1 2 3 4 (fun _ => 0%R) (fun _ => 1%R) (Arr [2; 2; 5; 4] (map INR (seq 0 80))) (Arr [3; 2; 3; 2] (map INR (seq 0 36))) (Arr [2; 3; 3; 4] (map INR (seq 0 72))) S) as (gw & E2 & _ & V2); [lia|split; reflexivity|split; reflexivity|split; reflexivity|].
  exists gx, gw. cbv zeta. auto.
Qed.

(** ** C52: conv2d_transpose *)
Theorem C52_input_gradient : forall (checked : bool) (batch xch ych xh xw kh kw p s d yh yw : nat) (uninit uninit' : nat -> R) (x w gy : arr R),
  conv_sizes xch ych xh xw kh kw p s d yh yw -> covers xh p s d kh yh -> covers xw p s d kw yw ->
  (checked = true -> 2 * p <= s * (yh - 1) /\ 2 * p <= s * (yw - 1)) -> 0 < batch ->
  has_shape [batch; ych; yh; yw] x -> has_shape [ych; xch; kh; kw] w -> has_shape [batch; xch; xh; xw] gy ->
  exists gx, conv2d_transpose_grad_x 0%R Rplus Rmult uninit p s d gy w = KOk gx /\
    vjp (fun x => kok (rconv2d_transpose uninit' checked p s d x w)) x gy gx.
Proof.
  intros checked batch xch ych xh xw kh kw p s d yh yw u u' x w gy S Ch Cw Ck Pb Hx Hw Hg. exists (conv_array batch xch ych kh kw yh yw p s d gy w).
  split; [unfold conv2d_transpose_grad_x; rewrite (conv_run batch xch ych xh xw kh kw p s d yh yw) by auto; reflexivity|].
  apply (vjp_adjoint _ _ _ _ (transposed_array batch xch xh xw kh kw p s d yh yw ych w)).
  - apply has_shape_wf in Hx. tauto.
  - apply tab_wf.
  - simpl. symmetry. exact (proj1 Hx).
  - intros x' Hx'. rewrite (proj1 Hx) in Hx'. rewrite (transpose_run checked batch xch ych xh xw kh kw p s d yh yw) by auto. split; [reflexivity|]. rewrite (proj1 Hg). apply tab_has_shape.
  - intros x' Hx'. rewrite (proj1 Hx) in Hx'. rewrite (dot_comm gy), (dot_comm (conv_array _ _ _ _ _ _ _ _ _ _ _ _)). symmetry. apply dot_conv; auto.
Qed.
Print Assumptions C52_input_gradient.
Lemma transposed_filter_vjp checked batch xch ych xh xw kh kw p s d yh yw u x w gy :
  conv_sizes xch ych xh xw kh kw p s d yh yw -> covers xh p s d kh yh -> covers xw p s d kw yw ->
  (checked = true -> 2 * p <= s * (yh - 1) /\ 2 * p <= s * (yw - 1)) -> 0 < batch ->
  has_shape [batch; ych; yh; yw] x -> has_shape [ych; xch; kh; kw] w -> has_shape [batch; xch; xh; xw] gy ->
  vjp (fun w => kok (rconv2d_transpose u checked p s d x w)) w gy (filter_array batch xch ych kh kw yh yw p s d gy x).
Proof.
  intros S Ch Cw Ck Pb Hx Hw Hg. apply (vjp_adjoint _ _ _ _ (fun w => transposed_array batch xch xh xw kh kw p s d yh yw ych w x)).
  - apply has_shape_wf in Hw. tauto.
  - apply tab_wf.
  - simpl. symmetry. exact (proj1 Hw).
  - intros w' Hw'. rewrite (proj1 Hw) in Hw'. rewrite (transpose_run checked batch xch ych xh xw kh kw p s d yh yw) by auto. split; [reflexivity|]. rewrite (proj1 Hg). apply tab_has_shape.
  - intros w' Hw'. rewrite (proj1 Hw) in Hw'. rewrite dot_filter by auto. rewrite (dot_comm gy). symmetry. apply dot_conv; auto.
Qed.
(** The filter: right for square inputs and for single images. *)
Theorem C52_filter_gradient : forall (checked : bool) (batch xch ych xh xw kh kw p s d yh yw : nat) (uninit uninit' : nat -> R) (x w gy : arr R),
  conv_sizes xch ych xh xw kh kw p s d yh yw -> covers xh p s d kh yh -> covers xw p s d kw yw ->
  (checked = true -> 2 * p <= s * (yh - 1) /\ 2 * p <= s * (yw - 1)) -> 0 < batch -> yh = yw \/ batch = 1 ->
  has_shape [batch; ych; yh; yw] x -> has_shape [ych; xch; kh; kw] w -> has_shape [batch; xch; xh; xw] gy ->
  exists gw, conv2d_transpose_grad_w 0%R Rplus Rmult uninit p s d x w gy = KOk gw /\
    vjp (fun w => kok (rconv2d_transpose uninit' checked p s d x w)) w gy gw.
Proof.
  intros checked batch xch ych xh xw kh kw p s d yh yw u u' x w gy S Ch Cw Ck Pb Sq Hx Hw Hg. eexists.
  split; [|apply (transposed_filter_vjp checked batch xch ych xh xw kh kw p s d yh yw); auto].
  unfold conv2d_transpose_grad_w. apply (transpose_filter_value batch xch ych kh kw p s d yh yw xh xw u (sizes_h _ _ _ _ _ _ _ _ _ _ _ S) (sizes_w _ _ _ _ _ _ _ _ _ _ _ S) (sizes_fit4 _ _ _ _ _ _ _ _ _ _ _ S)); auto; [destruct S; tauto|exact (proj1 Hw)].
Qed.
Print Assumptions C52_filter_gradient.
(** Higher than wide and two images or more: never returns (a panic, or reads
    behind the buffer). *)
Theorem C52_tall_filter_gradient_fails : forall (batch xch ych xh xw kh kw p s d yh yw : nat) (uninit : nat -> R) (x w gy : arr R),
  conv_sizes xch ych xh xw kh kw p s d yh yw -> 2 <= batch -> yw < yh ->
  has_shape [batch; ych; yh; yw] x -> has_shape [ych; xch; kh; kw] w -> has_shape [batch; xch; xh; xw] gy ->
  forall gw, conv2d_transpose_grad_w 0%R Rplus Rmult uninit p s d x w gy <> KOk gw.
Proof.
  intros batch xch ych xh xw kh kw p s d yh yw u x w gy S Hb Tall Hx Hw Hg. unfold conv2d_transpose_grad_w.
  apply (transpose_filter_tall u batch xch ych xh xw kh kw p s d yh yw gy x w (sizes_h _ _ _ _ _ _ _ _ _ _ _ S) (sizes_w _ _ _ _ _ _ _ _ _ _ _ S) (sizes_fit2 _ _ _ _ _ _ _ _ _ _ _ S)); auto; try (destruct S; tauto). exact (proj1 Hw).
Qed.
Print Assumptions C52_tall_filter_gradient_fails.
(** Wider than high: the columns of item [b] are taken from the wrong place. *)
Theorem C52_wide_filter_gradient : forall (batch xch ych xh xw kh kw p s d yh yw : nat) (uninit : nat -> R) (x w gy : arr R),
  conv_sizes xch ych xh xw kh kw p s d yh yw -> 0 < batch -> yh <= yw ->
  has_shape [batch; ych; yh; yw] x -> has_shape [ych; xch; kh; kw] w -> has_shape [batch; xch; xh; xw] gy ->
  exists gw, conv2d_transpose_grad_w 0%R Rplus Rmult uninit p s d x w gy = KOk gw /\ has_shape [ych; xch; kh; kw] gw /\
    forall o c ki kj, o < ych -> c < xch -> ki < kh -> kj < kw ->
      aget 0%R gw [o; c; ki; kj] = sum_below batch (fun b => sum_below yh (fun i => sum_below yw (fun j => aget 0 x [b; o; i; j] *
        nth (b * (yh * yh * kh * kw * xch) + ravel [xch; kh; kw; yh; yw] [c; ki; kj; i; j])
          (a_data (tab [batch; xch; kh; kw; yh; yw] (fun v => match v with [b; c; ki; kj; i; j] => pixel gy b c (under p s d i ki) (under p s d j kj) | _ => 0 end))) 0)))%R.
Proof.
  intros batch xch ych xh xw kh kw p s d yh yw u x w gy S Pb Le Hx Hw Hg. eexists. split; [|split].
  - unfold conv2d_transpose_grad_w. apply (transpose_filter_at batch xch ych kh kw p s d yh yw xh xw u (sizes_h _ _ _ _ _ _ _ _ _ _ _ S) (sizes_w _ _ _ _ _ _ _ _ _ _ _ S) (sizes_fit4 _ _ _ _ _ _ _ _ _ _ _ S)); auto; [destruct S; tauto|exact (proj1 Hw)].
  - apply tab_has_shape.
  - intros o c ki kj Ho Hc Hi Hj. rewrite aget_tab by (repeat constructor; assumption).
    reflexivity.
Qed.
Print Assumptions C52_wide_filter_gradient.
(** Witness: two images of 2 x 3 ones, a 1 x 1 filter, gradient 1..12: the
    filter's gradient should be 78, the code returns 66. *)
Theorem C52_wide_filter_gradient_refuted : exists (x w gy gw : arr R),
  conv2d_transpose_grad_w 0%R Rplus Rmult (fun _ => 0%R) 0 1 1 x w gy = KOk gw /\
  has_shape [2; 1; 2; 3] gy /\ aget 0%R gw [0; 0; 0; 0] = 66%R /\
  (exists gw', vjp (fun w => kok (rconv2d_transpose (fun _ => 0%R) true 0 1 1 x w)) w gy gw' /\ aget 0%R gw' [0; 0; 0; 0] = 78%R) /\
  ~ vjp (fun w => kok (rconv2d_transpose (fun _ => 0%R) true 0 1 1 x w)) w gy gw.
Proof.
  assert (S : conv_sizes 1 1 2 3 1 1 0 1 1 2 3) by (split; [lia|]; split; [intros i; lia|]; split; [intros i; lia|]; repeat constructor).
  set (x := Arr [2; 1; 2; 3] (repeat 1%R 12)). set (w := Arr [1; 1; 1; 1] [1%R]). set (gy := Arr [2; 1; 2; 3] [1; 2; 3; 4; 5; 6; 7; 8; 9; 10; 11; 12]%R).
  assert (Hx : has_shape [2; 1; 2; 3] x) by (split; reflexivity). assert (Hw : has_shape [1; 1; 1; 1] w) by (split; reflexivity). assert (Hg : has_shape [2; 1; 2; 3] gy) by (split; reflexivity).
  destruct (C52_wide_filter_gradient 2 1 1 2 3 1 1 0 1 1 2 3 (fun _ => 0%R) x w gy S ltac:(lia) ltac:(lia) Hx Hw Hg) as (gw & E & Hgw & G).
  pose proof (transposed_filter_vjp true 2 1 1 2 3 1 1 0 1 1 2 3 (fun _ => 0%R) x w gy S eq_refl eq_refl ltac:(lia) ltac:(lia) Hx Hw Hg) as V.
  assert (G66 : aget 0%R gw [0; 0; 0; 0] = 66%R) by (rewrite G by lia; cbv -[Rplus Rmult IZR]; lra).
  assert (G78 : aget 0%R (filter_array 2 1 1 1 1 2 3 0 1 1 gy x) [0; 0; 0; 0] = 78%R).
  { unfold filter_array. rewrite aget_tab by (repeat constructor). cbv -[Rplus Rmult IZR]. lra. }
  exists x, w, gy, gw. split; [exact E|]. split; [exact Hg|]. split; [exact G66|]. split; [eauto|].
  intros V'. pose proof (vjp_unique _ _ _ _ _ V V') as Q. rewrite Q in G78. lra.
Qed.
Print Assumptions C52_wide_filter_gradient_refuted.
Example C52_hypotheses_met : exists gx gw,
  let x := Arr [2; 3; 3; 3] (map INR (seq 0 54)) in let w := Arr [3; 2; 3; 2] (map INR (seq 0 36)) in let gy := Arr [2; 2; 5; 4] (map INR (seq 0 80)) in
  conv2d_transpose_grad_x 0%R Rplus Rmult (fun _ => 0%R) 0 1 1 gy w = KOk gx /\ vjp (fun x => kok (rconv2d_transpose (fun _ => 1%R) true 0 1 1 x w)) x gy gx /\
  conv2d_transpose_grad_w 0%R Rplus Rmult (fun _ => 0%R) 0 1 1 x w gy = KOk gw /\ vjp (fun w => kok (rconv2d_transpose (fun _ => 1%R) true 0 1 1 x w)) w gy gw.
Proof.
  assert (S : conv_sizes 2 3 5 4 3 2 0 1 1 3 3) by (split; [lia|]; split; [intros i; lia|]; split; [intros i; lia|]; repeat constructor).
  destruct (C52_input_gradient true 2 2 3 5 4 3 2 0 1 1 3 3 (fun _ => 0%R) (fun _ => 1%R) (Arr [2; 3; 3; 3] (map INR (seq 0 54))) (Arr [3; 2; 3; 2] (map INR (seq 0 36))) (Arr [2; 2; 5; 4] (map INR (seq 0 80))) S) as (gx & E1 & V1); [reflexivity|reflexivity|lia|lia|split; reflexivity|split; reflexivity|split; reflexivity|].
  destruct (C52_filter_gradient true 2 2 3 5 4 3 2 0 1 1 3 3 (fun _ => 0%R) (fun _ => 1%R) (Arr [2; 3; 3; 3] (map INR (seq 0 54))) (Arr [3; 2; 3; 2] (map INR (seq 0 36))) (Arr [2; 2; 5; 4] (map INR (seq 0 80))) S) as (gw & E2 & V2); [reflexivity|reflexivity|lia|lia|auto|split; reflexivity|split; reflexivity|split; reflexivity|].
  exists gx, gw. cbv zeta. auto.
Qed.

(** ** C53: gradients of the filter gradients (second order) *)
(** Conv2DFilterGrad::grad (conv2d.rs:740-772): for the image
    conv2d_transpose(gy, ggw), for gy conv2d_with_cols(cols, ggw). *)
Theorem C53_filter_gradient_of_image : forall (checked : bool) (batch xch ych xh xw kh kw p s d yh yw : nat) (uninit uninit' : nat -> R) (x w gy ggw : arr R),
  conv_sizes xch ych xh xw kh kw p s d yh yw -> covers xh p s d kh yh -> covers xw p s d kw yw ->
  (checked = true -> 2 * p <= s * (yh - 1) /\ 2 * p <= s * (yw - 1)) -> 0 < batch ->
  has_shape [batch; xch; xh; xw] x -> has_shape [ych; xch; kh; kw] w -> has_shape [batch; ych; yh; yw] gy -> has_shape [ych; xch; kh; kw] ggw ->
  exists g, rconv2d_transpose uninit checked p s d gy ggw = KOk g /\
    vjp (fun x => kok (conv2d_grad_w 0%R Rplus Rmult uninit' p s d x w gy)) x ggw g.
Proof.
  intros checked batch xch ych xh xw kh kw p s d yh yw u u' x w gy ggw S Ch Cw Ck Pb Hx Hw Hg Hgg. eexists.
  split; [exact (transpose_run checked batch xch ych xh xw kh kw p s d yh yw u gy ggw S Ch Cw Ck Pb Hg Hgg)|].
  apply (vjp_adjoint _ _ _ _ (fun x => filter_array batch xch ych kh kw yh yw p s d x gy)).
  - apply has_shape_wf in Hx. tauto.
  - apply tab_wf.
  - simpl. symmetry. exact (proj1 Hx).
  - intros x' Hx'. rewrite (proj1 Hx) in Hx'. unfold conv2d_grad_w. rewrite (conv_run batch xch ych xh xw kh kw p s d yh yw) by auto. cbn [kbind snd].
    rewrite (conv2d_filter_grad_value batch xch ych kh kw p s d yh yw u' x' gy w Pb Hg (proj1 Hw)). split; [reflexivity|]. rewrite (proj1 Hgg). apply tab_has_shape.
  - intros x' Hx'. rewrite (proj1 Hx) in Hx'. rewrite dot_comm, dot_filter by auto. apply dot_conv; auto.
Qed.
Print Assumptions C53_filter_gradient_of_image.
Theorem C53_filter_gradient_of_gradient : forall (batch xch ych xh xw kh kw p s d yh yw : nat) (uninit uninit' : nat -> R) (x w gy ggw : arr R) y cols,
  conv_sizes xch ych xh xw kh kw p s d yh yw -> 0 < batch ->
  has_shape [batch; xch; xh; xw] x -> has_shape [ych; xch; kh; kw] w -> has_shape [batch; ych; yh; yw] gy -> has_shape [ych; xch; kh; kw] ggw ->
  rconv2d uninit' p s d x w = KOk (y, cols) ->
  exists g, rconv2d_with_cols uninit cols ggw = KOk g /\
    vjp (fun gy => kok (conv2d_grad_w 0%R Rplus Rmult uninit' p s d x w gy)) gy ggw g.
Proof.
  intros batch xch ych xh xw kh kw p s d yh yw u u' x w gy ggw y cols S Pb Hx Hw Hg Hgg E.
  rewrite (conv_run batch xch ych xh xw kh kw p s d yh yw) in E by auto. apply KOk_inj in E. apply (f_equal snd) in E. cbn [snd] in E. subst cols.
  exists (conv_array batch xch ych kh kw yh yw p s d x ggw). split; [apply conv2d_with_cols_value; [destruct S; tauto|exact Hgg]|].
  apply (vjp_adjoint _ _ _ _ (fun gy => filter_array batch xch ych kh kw yh yw p s d x gy)).
  - apply has_shape_wf in Hg. tauto.
  - apply tab_wf.
  - simpl. symmetry. exact (proj1 Hg).
  - intros g' Hg'. rewrite (proj1 Hg) in Hg'. unfold conv2d_grad_w. rewrite (conv_run batch xch ych xh xw kh kw p s d yh yw) by auto. cbn [kbind snd].
    rewrite (conv2d_filter_grad_value batch xch ych kh kw p s d yh yw u' x g' w Pb Hg' (proj1 Hw)). split; [reflexivity|]. rewrite (proj1 Hgg). apply tab_has_shape.
  - intros g' Hg'. rewrite (proj1 Hg) in Hg'. rewrite dot_comm, dot_filter by auto. apply dot_comm.
Qed.
Print Assumptions C53_filter_gradient_of_gradient.
(** conv2d_with_cols (used in these rules): its filter gradient and, seen as a
    function of the image the columns come from, its image gradient. *)
Theorem C53_with_cols_filter_gradient : forall (batch xch ych xh xw kh kw p s d yh yw : nat) (uninit uninit' : nat -> R) (x w w0 gy : arr R) y cols,
  conv_sizes xch ych xh xw kh kw p s d yh yw -> 0 < batch ->
  has_shape [batch; xch; xh; xw] x -> has_shape [ych; xch; kh; kw] w -> has_shape [ych; xch; kh; kw] w0 -> has_shape [batch; ych; yh; yw] gy ->
  rconv2d uninit' p s d x w0 = KOk (y, cols) ->
  exists gw, conv2d_filter_grad 0%R Rplus Rmult uninit cols gy w = KOk gw /\
    vjp (fun w => kok (rconv2d_with_cols uninit' cols w)) w gy gw.
Proof.
  intros batch xch ych xh xw kh kw p s d yh yw u u' x w w0 gy y cols S Pb Hx Hw Hw0 Hg E.
  rewrite (conv_run batch xch ych xh xw kh kw p s d yh yw) in E by auto. apply KOk_inj in E. apply (f_equal snd) in E. cbn [snd] in E. subst cols.
  exists (filter_array batch xch ych kh kw yh yw p s d x gy). split; [apply conv2d_filter_grad_value; [exact Pb|exact Hg|exact (proj1 Hw)]|].
  apply (vjp_adjoint _ _ _ _ (fun w => conv_array batch xch ych kh kw yh yw p s d x w)).
  - apply has_shape_wf in Hw. tauto.
  - apply tab_wf.
  - simpl. symmetry. exact (proj1 Hw).
  - intros w' Hw'. rewrite (proj1 Hw) in Hw'. rewrite (conv2d_with_cols_value batch xch ych kh kw p s d yh yw) by (exact Hw' || (destruct S; tauto)). split; [reflexivity|]. rewrite (proj1 Hg). apply tab_has_shape.
  - intros w' Hw'. rewrite (proj1 Hw) in Hw'. symmetry. apply dot_filter; auto.
Qed.
Print Assumptions C53_with_cols_filter_gradient.
(** Conv2DTransposeFilterGrad::grad (conv2d_transpose.rs:450-475), square case. *)
Theorem C53_transposed_filter_gradient : forall (checked : bool) (batch xch ych xh xw kh kw p s d yh yw : nat) (uninit uninit' : nat -> R) (x w gy ggw : arr R),
  conv_sizes xch ych xh xw kh kw p s d yh yw -> covers xh p s d kh yh -> covers xw p s d kw yw ->
  (checked = true -> 2 * p <= s * (yh - 1) /\ 2 * p <= s * (yw - 1)) -> 0 < batch -> yh = yw \/ batch = 1 ->
  has_shape [batch; ych; yh; yw] x -> has_shape [ych; xch; kh; kw] w -> has_shape [batch; xch; xh; xw] gy -> has_shape [ych; xch; kh; kw] ggw ->
  (exists g, rconv2d_transpose uninit checked p s d x ggw = KOk g /\
     vjp (fun gy => kok (conv2d_transpose_grad_w 0%R Rplus Rmult uninit' p s d x w gy)) gy ggw g) /\
  (exists g, conv_result (rconv2d uninit p s d gy ggw) = Some g /\
     vjp (fun x => kok (conv2d_transpose_grad_w 0%R Rplus Rmult uninit' p s d x w gy)) x ggw g).
Proof.
  intros checked batch xch ych xh xw kh kw p s d yh yw u u' x w gy ggw S Ch Cw Ck Pb Sq Hx Hw Hg Hgg.
  assert (R0 : forall x gy, has_shape [batch; ych; yh; yw] x -> has_shape [batch; xch; xh; xw] gy ->
    conv2d_transpose_grad_w 0%R Rplus Rmult u' p s d x w gy = KOk (filter_array batch xch ych kh kw yh yw p s d gy x)).
  { intros x' g' Hx' Hg'. apply (transpose_filter_value batch xch ych kh kw p s d yh yw xh xw u' (sizes_h _ _ _ _ _ _ _ _ _ _ _ S) (sizes_w _ _ _ _ _ _ _ _ _ _ _ S) (sizes_fit4 _ _ _ _ _ _ _ _ _ _ _ S)); auto; [destruct S; tauto|exact (proj1 Hw)]. }
  split; eexists.
  - split; [exact (transpose_run checked batch xch ych xh xw kh kw p s d yh yw u x ggw S Ch Cw Ck Pb Hx Hgg)|].
    apply (vjp_adjoint _ _ _ _ (fun gy => filter_array batch xch ych kh kw yh yw p s d gy x)).
    + apply has_shape_wf in Hg. tauto.
    + apply tab_wf.
    + simpl. symmetry. exact (proj1 Hg).
    + intros g' Hg'. rewrite (proj1 Hg) in Hg'. rewrite R0 by auto. split; [reflexivity|]. rewrite (proj1 Hgg). apply tab_has_shape.
    + intros g' Hg'. rewrite (proj1 Hg) in Hg'. rewrite dot_comm, dot_filter by auto. apply dot_conv; auto.
  - rewrite (conv_run batch xch ych xh xw kh kw p s d yh yw) by auto. split; [reflexivity|].
    apply (vjp_adjoint _ _ _ _ (fun x => filter_array batch xch ych kh kw yh yw p s d gy x)).
    + apply has_shape_wf in Hx. tauto.
    + apply tab_wf.
    + simpl. symmetry. exact (proj1 Hx).
    + intros x' Hx'. rewrite (proj1 Hx) in Hx'. rewrite R0 by auto. split; [reflexivity|]. rewrite (proj1 Hgg). apply tab_has_shape.
    + intros x' Hx'. rewrite (proj1 Hx) in Hx'. rewrite dot_comm, dot_filter by auto. apply dot_comm.
Qed.
Print Assumptions C53_transposed_filter_gradient.
Example C53_hypotheses_met : exists g,
  let x := Arr [2; 2; 5; 4] (map INR (seq 0 80)) in let w := Arr [3; 2; 3; 2] (map INR (seq 0 36)) in let gy := Arr [2; 3; 3; 4] (map INR (seq 0 72)) in
  rconv2d_transpose (fun _ => 0%R) true 1 1 2 gy w = KOk g /\ vjp (fun x => kok (conv2d_grad_w 0%R Rplus Rmult (fun _ => 3%R) 1 1 2 x w gy)) x w g.
Proof.
  destruct conv_example_covers as (S & C1 & C2 & P1 & P2).
  destruct (C53_filter_gradient_of_image true 2 2 3 5 4 3 2 1 1 2 3 4 (fun _ => 0%R) (fun _ => 3%R) (Arr [2; 2; 5; 4] (map INR (seq 0 80))) (Arr [3; 2; 3; 2] (map INR (seq 0 36))) (Arr [2; 3; 3; 4] (map INR (seq 0 72))) (Arr [3; 2; 3; 2] (map INR (seq 0 36))) S C1 C2) as (g & E1 & V1); [auto|lia|split; reflexivity|split; reflexivity|split; reflexivity|split; reflexivity|].
  exists g. cbv zeta. auto.
Qed.
