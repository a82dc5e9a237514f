(** The rules of slices, splits and tiles of unit axes. *)
From Coq Require Import String List Arith ZArith NArith Bool Lia Reals Lra.
From Coquelicot Require Import Coquelicot.
Import ListNotations.
From Verif Require Import Graph_Model Eval_Model Eval_Spec Eval_Proofs Graph_Proofs Grad_Model Grad_Spec
  Scalar_Model Scalar_Spec Scalar_Rules Scalar_Proofs.
From Verif Require Import Array_Model Array_Proofs Array_Sum Arith_Model Arith_Proofs Arith_Final Vjp_Spec Vjp_Proofs
  Reduce_Model Reduce_Spec Reduce_Proofs Mean_Model Shape_Model Shape_Spec Shape_Proofs Shape_Proofs2 Shape_Proofs3
  Dot_Model Dot_Proofs Softmax_Model Softmax_Spec Softmax_Proofs Softmax_Proofs2 Softmax_Proofs3 Softmax_Xent
  Tens_Model Tens_Spec Tens_Fwd Tens_Fwd2 Tens_Fwd3 Tens_Build Tens_Rules Tens_Rules2 Tens_Rules3 Tens_Rules4 Tens_Rules5 Tens_Rules6.
Local Set Bullet Behavior "Strict Subproofs".
Local Open Scope R_scope.

Lemma slice_correct sl rs sh a out : ranges sh sl = Some rs -> has_shape sh a ->
  exists K, correct (TSlice sl) [TyA sh] [TA a] (range_lens rs) out K.
Proof.
  intros HR Ha. pose proof (ranges_ok _ _ _ HR) as F. eexists.
  apply (pull_correct (TSlice sl) sh [] (range_lens rs) a out (enter rs) (EOp2 (TSliceGrad sl) (SOfIn 0) (EIn 0) EGy)).
  - intros i Hi. apply (enter_in rs sh); auto.
  - intros a' Ha'. cbn [map tcompute]. rewrite (slice_pull sl rs sh) by auto. reflexivity.
  - reflexivity.
  - cbn [ety map nth_error]. unfold ety_op. cbn [op_ty]. rewrite HR, shape_eqb_refl. cbn [is_leaf negb andb stored_in stored_ok nth_error]. rewrite shape_eqb_refl. reflexivity.
  - intros gy Hg. cbn [eeval map nth_error tcompute]. rewrite (slice_grad_push sl rs sh) by auto. reflexivity.
Qed.
Lemma split_correct axis lo hi rs sh a out : split_ranges sh axis lo hi = Some rs -> has_shape sh a ->
  exists K, correct (TSplit axis lo hi) [TyA sh] [TA a] (range_lens rs) out K.
Proof.
  intros HS Ha. destruct (split_as_slice _ _ _ _ _ HS) as (sl & HR & E1 & E2). pose proof (ranges_ok _ _ _ HR) as F. eexists.
  apply (pull_correct (TSplit axis lo hi) sh [] (range_lens rs) a out (enter rs) (EOp2 (TSplitGrad axis lo hi) (SOfIn 0) (EIn 0) EGy)).
  - intros i Hi. apply (enter_in rs sh); auto.
  - intros a' Ha'. cbn [map tcompute]. rewrite E1, (slice_pull sl rs sh) by auto. reflexivity.
  - reflexivity.
  - cbn [ety map nth_error]. unfold ety_op. cbn [op_ty]. rewrite HS, shape_eqb_refl. cbn [is_leaf negb andb stored_in stored_ok nth_error]. rewrite shape_eqb_refl. reflexivity.
  - intros gy Hg. cbn [eeval map nth_error tcompute]. rewrite E2, (slice_grad_push sl rs sh) by auto. reflexivity.
Qed.
Lemma set_at_single k num sh : set_at k num sh = [0%nat] -> (0 < num)%nat -> (k < length sh)%nat -> False.
Proof.
  intros E Hn Hk. assert (L : length sh = 1%nat) by (rewrite <- (Array_Proofs.set_length k num sh), E; reflexivity).
  assert (k = 0%nat) by lia. subst k. destruct sh as [|d [|]]; try discriminate. simpl in E. inversion E. lia.
Qed.
Lemma set_as_reduced k : (forall l, reduced_shape true [k] l = set_at k 1%nat l) /\ (forall l, reduced_index true [k] l = set_at k 0%nat l).
Proof. split; intros l; apply fill_one. Qed.
Lemma tile_correct axis k num sh a out : axis_of (length sh) axis = Some k -> (0 < num)%nat -> nth k sh 0%nat = 1%nat -> has_shape sh a ->
  exists K, correct (TTile axis num) [TyA sh] [TA a] (set_at k num sh) out K.
Proof.
  intros HA Hn E1 Ha. assert (Hk : (k < length sh)%nat) by (apply axis_of_ok in HA; destruct HA; auto).
  set (o := set_at k num sh). assert (LO : length o = length sh) by apply Array_Proofs.set_length.
  assert (B : set_at k 1%nat o = sh) by (unfold o; rewrite Shape_Proofs.set_set, <- E1; apply Shape_Proofs.set_nth_self).
  assert (NZ : o <> [0%nat]) by (intros E; eapply set_at_single; eauto).
  assert (AX : axes_of (length o) [axis] = Some [k]) by (rewrite LO; apply axes_one; exact HA).
  destruct (set_as_reduced k) as [RS RI]. eexists.
  apply (pull_correct (TTile axis num) sh [] o a out (set_at k 0%nat) (EOp2 (TReduceSum true) SNone EGy (EInts [axis]))).
  - intros i Hi. rewrite <- B. apply in_bounds_set; auto.
  - intros a' Ha'. cbn [map tcompute]. rewrite (tile_pull axis k num sh) by auto. reflexivity.
  - reflexivity.
  - cbn [ety map nth_error]. unfold ety_op. cbn [op_ty]. rewrite (shape_eqb_ne _ _ NZ), AX. cbn [option_map]. rewrite RS, B. reflexivity.
  - intros gy Hg. cbn [eeval map nth_error tcompute]. rewrite (reduce_push true [axis] [k] o gy Hg NZ AX), RS, B.
    cbn [otA option_map]. do 2 f_equal. apply tab_ext. intros j Hj. apply rsum_idx_ext. intros i Hi. rewrite RI. reflexivity.
Qed.
