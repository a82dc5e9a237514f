(** C88: third-order gradients of max pooling. *)
From Coq Require Import List Arith ZArith NArith Bool Lia Reals Lra RealField.
Import ListNotations.
From Verif Require Import Eval_Proofs Array_Model Array_Proofs Array_Sum Vjp_Spec Vjp_Proofs Dot_Spec Dot_Proofs Arith_Final Conv_Model Conv_Proofs Conv_Forward Conv_Backward Conv_Filter Pool_Model Pool_Spec Pool_Proofs Pool_Final P_Pool.
From Verif Require P_Second.
From Verif Require Import Third_Model.
Local Set Bullet Behavior "Strict Subproofs".

(** The sum of the entries. *)
Definition total (a : arr R) : R := fold_right Rplus 0%R (a_data a).
Lemma total_dot sh a : has_shape sh a -> dot a (tab sh (fun _ => 1%R)) = total a.
Proof.
  intros (S & L). unfold dot, total, tab. cbn [a_data]. assert (Q : length (a_data a) = length (indices sh)) by (rewrite L, indices_length; reflexivity).
  clear L. revert Q. generalize (indices sh). induction (a_data a) as [|x l IH]; intros [|i ixs] Q; try discriminate Q; [reflexivity|].
  cbn in Q |- *. injection Q as Q. rewrite IH by exact Q. ring.
Qed.

(** The operation [MaxPool2DGradGrad] is linear in its first input, and the gradient is what
    the existing operation [MaxPool2DGrad] computes from the incoming gradient.  Its
    entries sum to those of the incoming gradient, so zeros are not a gradient when that
    sum is not zero; but nothing is supplied for the first input. *)
Theorem C88_max_pool_third_order_lost :
  forall (checked : bool) (lowest : R) (bits : N) (uninit : nat -> R) (batch ch xh xw s size yh yw : nat) (x y ggx gh : arr R) (pos : arr nat),
  pool_sizes xh xw 0 s size yh yw -> pool_covers xh 0 s size yh -> pool_covers xw 0 s size yw ->
  has_shape [batch; ch; xh; xw] x -> Forall (Rlt lowest) (a_data x) -> (N.of_nat (batch * ch * xh * xw) <= 2 ^ bits)%N ->
  max_pool2d lowest rgt bits uninit checked 0 s size x = KOk (y, pos) ->
  has_shape [batch; ch; xh; xw] ggx -> has_shape [batch; ch; yh; yw] gh ->
  let second ggx := kok (max_pool2d_grad_grad 0 s size ggx pos) in
  nth_error pool_third_rule 0 = Some None /\
  exists right, max_pool2d_grad 0%R Rplus checked 0 s size gh pos = KOk right /\ vjp second ggx gh right /\
    total right = total gh /\
    (total gh <> 0%R -> forall zeros, Forall (fun e => e = 0%R) (a_data zeros) -> ~ vjp second ggx gh zeros).
Proof.
  intros checked lowest bits u batch ch xh xw s size yh yw x y ggx gh pos S Ch Cw Hx Low HB E Hgg Hh second. split; [reflexivity|].
  destruct (P_Second.pool_positions checked lowest bits u batch ch xh xw s size yh yw x y pos S Hx Low HB E) as (Sp & Wp & FP).
  pose proof S as (Q1 & Q2 & Q3 & Q4 & F1 & F2 & B1 & B2).
  assert (EP : pos = tab [batch; ch; yh; yw] (aget 0 pos)) by (rewrite <- Sp; symmetry; apply tab_aget; exact Wp).
  assert (PX : batch * ch * xh * xw = prod [batch; ch; xh; xw]) by (simpl; lia). rewrite PX in FP.
  assert (PL : forall ix, in_bounds [batch; ch; yh; yw] ix -> aget 0 pos ix < prod [batch; ch; xh; xw]).
  { intros ix Hix. rewrite Forall_forall in FP. apply FP. unfold aget. apply nth_In. rewrite Wp, Sp. apply ravel_lt. exact Hix. }
  set (L := fun ggx : arr R => tab [batch; ch; yh; yw] (fun ix => nth (aget 0 pos ix) (a_data ggx) 0%R)).
  assert (RUN : forall v, has_shape [batch; ch; xh; xw] v -> second v = Some (L v)).
  { intros v Hv. unfold second, max_pool2d_grad_grad. rewrite (proj1 Hv), (fits_out_size xh 0 s size yh), (fits_out_size xw 0 s size yw) by auto. cbn [kbind].
    replace (yh * yw * ch * batch) with (length (a_data pos)) by (rewrite Wp, Sp; simpl; lia). rewrite (gather_value 0%R).
    - cbn [kbind]. unfold L, tab. rewrite (data_map 0 pos Wp), Sp, map_map. reflexivity.
    - intros k Hk. rewrite (proj2 Hv). rewrite Forall_forall in FP. auto. }
  destruct (grad_run checked batch ch xh xw 0 s size yh yw gh (aget 0 pos)) as (gx & Eg & Hgx & G); auto; try (apply in_size_covers; auto; intros _; apply Nat.le_0_l).
  rewrite <- EP in Eg.
  assert (D : forall v, has_shape [batch; ch; xh; xw] v -> dot gh (L v) = dot gx v).
  { intros v Hv. rewrite (grad_dot batch ch xh xw yh yw gh gx v (aget 0 pos) Hh Hgx Hv PL G). rewrite (dot_sum [batch; ch; yh; yw]) by (exact Hh || apply tab_has_shape).
    apply sum_ext. intros ix Hix. apply indices_in in Hix. unfold L. rewrite aget_tab by exact Hix. reflexivity. }
  exists gx. split; [exact Eg|].
  assert (V : vjp second ggx gh gx).
  { apply (vjp_adjoint _ _ _ _ L).
    - apply has_shape_wf in Hgg. tauto.
    - apply has_shape_wf in Hgx. tauto.
    - rewrite (proj1 Hgg). exact (proj1 Hgx).
    - intros v Hv. rewrite (proj1 Hgg) in Hv. split; [apply RUN; exact Hv|]. rewrite (proj1 Hh). apply tab_has_shape.
    - intros v Hv. rewrite (proj1 Hgg) in Hv. apply D. exact Hv. }
  split; [exact V|].
  assert (T : total gx = total gh).
  { rewrite <- (total_dot _ gx Hgx), <- (total_dot _ gh Hh), <- D by apply tab_has_shape. f_equal. unfold L. apply tab_ext. intros ix Hix. specialize (PL ix Hix).
    unfold tab. cbn [a_data]. rewrite (nth_indep _ 0%R 1%R) by (rewrite map_length, indices_length; exact PL). rewrite (map_nth (fun _ => 1%R) _ []). reflexivity. }
  split; [exact T|]. intros NZ zeros Z V'. pose proof (vjp_unique _ _ _ _ _ V V') as Q. subst zeros. apply NZ. rewrite <- T. unfold total.
  clear - Z. induction Z as [|e l He _ IH]; [reflexivity|]. cbn. rewrite He, IH. ring.
Qed.
Print Assumptions C88_max_pool_third_order_lost.

(** C88's hypotheses hold for an image of 2 x 2 entries. *)
Example C88_hypotheses_met : forall checked, exists y pos,
  pool_sizes 2 2 0 2 2 1 1 /\ pool_covers 2 0 2 2 1 /\
  max_pool2d (-1)%R rgt 24 (fun _ => 0%R) checked 0 2 2 (Arr [1; 1; 2; 2] [0; 3; 1; 2]%R) = KOk (y, pos) /\
  has_shape [1; 1; 2; 2] (Arr [1; 1; 2; 2] [5; 6; 7; 8]%R) /\ has_shape [1; 1; 1; 1] (Arr [1; 1; 1; 1] [1%R]) /\
  Forall (Rlt (-1)) [0; 3; 1; 2]%R /\ (N.of_nat (1 * 1 * 2 * 2) <= 2 ^ 24)%N /\ total (Arr [1; 1; 1; 1] [1%R]) <> 0%R.
Proof.
  intros checked.
  assert (S : pool_sizes 2 2 0 2 2 1 1).
  { repeat split; try lia; try (intros; lia); cbn; lia. }
  assert (Hx : has_shape [1; 1; 2; 2] (Arr [1; 1; 2; 2] [0; 3; 1; 2]%R)) by (split; reflexivity).
  assert (Low : Forall (Rlt (-1)) [0; 3; 1; 2]%R) by (repeat constructor; lra).
  assert (HB : (N.of_nat (1 * 1 * 2 * 2) <= 2 ^ 24)%N) by (vm_compute; discriminate).
  destruct (C40_value checked (-1)%R 24 (fun _ => 0%R) 1 1 2 2 2 2 1 1 _ S Hx Low HB) as (y & pos & E & _). exists y, pos.
  split; [exact S|]. split; [reflexivity|]. split; [exact E|]. split; [split; reflexivity|]. split; [split; reflexivity|]. split; [exact Low|]. split; [exact HB|].
  unfold total. cbn. lra.
Qed.
