(** Property C76: operations on transposed and sliced operands. *)
From Coq Require Import List Arith ZArith Bool Lia.
Import ListNotations.
From Verif Require Import Array_Model Array_Proofs Arith_Model Reduce_Model Argx_Model Argx_Proofs Shape_Model Shape_Proofs Shape_Proofs3 Batch_Model Batch_Proofs Conv_Model Layout_Model Layout_Spec Layout_Proofs Layout_Ops.

(** reshape, transpose, slice, split and squeeze do on every view what they do on the array
    the view stands for. *)
Theorem C76_views_agree : forall (A : Type) (zero : A) (v : view A), view_ok v ->
  (forall dims, option_map (contents zero) (v_reshape zero dims v) = reshape dims (contents zero v)) /\
  (forall invert perm, option_map (contents zero) (v_transpose invert perm v) = transpose zero invert perm (contents zero v)) /\
  (forall sl, option_map (contents zero) (v_slice_forward sl v) = slice_forward zero sl (contents zero v)) /\
  (forall axis start stop, option_map (contents zero) (v_split_forward axis start stop v) = split_forward zero axis start stop (contents zero v)) /\
  (forall axes, option_map (contents zero) (v_squeeze axes v) = squeeze zero axes (contents zero v)).
Proof.
  intros A zero v W. split; [|split; [|split; [|split]]].
  - intros dims. apply v_reshape_eq. exact W.
  - intros invert perm. apply v_transpose_eq. exact W.
  - intros sl. apply v_slice_forward_eq.
  - intros axis start stop. apply v_split_forward_eq.
  - intros axes. apply v_squeeze_eq. exact W.
Qed.
Print Assumptions C76_views_agree.

(** expand_dims is right if the elements are stored by rows or by columns; otherwise it panics. *)
Theorem C76_expand_dims : forall (A : Type) (zero : A) (v : view A) axes, view_ok v ->
  (row_major_view v \/ column_major_view v -> option_map (contents zero) (v_expand axes v) = expand axes (contents zero v)) /\
  (~ row_major_view v -> ~ column_major_view v -> v_expand axes v = None).
Proof. intros A zero v axes W. split; [apply v_expand_eq; exact W|apply v_expand_none; exact W]. Qed.
Print Assumptions C76_expand_dims.

(** access_elem counts as the memory does: by rows, by columns, or it panics. *)
Theorem C76_access_elem : forall (A : Type) (zero : A) (v : view A) i, view_ok v ->
  (row_major_view v -> v_access_elem zero i v = access_elem zero i (contents zero v)) /\
  (column_major_view v -> ~ row_major_view v -> forall k, elem_pos (prod (v_shape v)) i = Some k ->
    exists idx, in_bounds (v_shape v) idx /\ ravel (rev (v_shape v)) (rev idx) = k /\
      v_access_elem zero i v = Some (Arr [] [aget zero (contents zero v) idx])) /\
  (~ row_major_view v -> ~ column_major_view v -> v_access_elem zero i v = None).
Proof.
  intros A zero v i W. split; [|split].
  - intros R. apply v_access_row; assumption.
  - intros C R k K. apply (v_access_column zero i v k); assumption.
  - apply v_access_none. exact W.
Qed.
Print Assumptions C76_access_elem.
(** Element 1 of the transpose of [[1,2],[3,4]] is 3; the code returns 2. *)
Theorem C76_access_elem_refuted :
  let x := View [1;2;3;4]%Z 0 [2;2] [2;1] in
  exists t, v_transpose false [1;0]%Z x = Some t /\ contents 0%Z t = Arr [2;2] [1;3;2;4]%Z /\
    access_elem 0%Z 1 (contents 0%Z t) = Some (Arr [] [3%Z]) /\ v_access_elem 0%Z 1 t = Some (Arr [] [2%Z]).
Proof. cbv zeta. eexists. split; [reflexivity|]. split; [reflexivity|]. split; reflexivity. Qed.
Print Assumptions C76_access_elem_refuted.

(** The gradient of a reduction is right for gradients stored by rows or by columns, and when no
    axis has to be inserted; otherwise it panics. *)
Theorem C76_reduce_gradient : forall (A : Type) (zero : A) (gy : view A) make sparse axes target, view_ok gy ->
  (row_major_view gy \/ column_major_view gy \/ v_shape gy = target \/ (make = false /\ is_scalar_shape (v_shape gy) = false) ->
    v_reduce_grad zero make sparse axes target gy = reduce_grad zero make sparse axes target (contents zero gy)) /\
  (~ row_major_view gy -> ~ column_major_view gy -> v_shape gy <> target -> v_reduce_grad zero true sparse axes target gy = None).
Proof.
  intros A zero gy make sparse axes target W. split.
  - intros [H|[H|H]]; [apply v_reduce_grad_eq; auto|apply v_reduce_grad_eq; auto|apply v_reduce_grad_other; assumption].
  - intros R C N. apply v_reduce_grad_none; assumption.
Qed.
Print Assumptions C76_reduce_gradient.

(** So the gradient of [transpose(reduce_sum(x, [0]), [1,0,2])] panics, for every x of shape
    [n,a,b,c] with a, b, c >= 2 and every gradient in standard layout. *)
Theorem C76_sum_then_transpose_panics : forall (A : Type) (zero : A) (gy : view A) n a b c,
  2 <= a -> 2 <= b -> 2 <= c -> standard gy -> v_shape gy = [b;a;c] ->
  exists w g, v_transpose true [1;0;2]%Z gy = Some w /\
    reduce_grad zero true false [0%Z] [n;a;b;c] (contents zero w) = Some g /\
    v_reduce_grad zero true false [0%Z] [n;a;b;c] w = None.
Proof.
  intros A zero gy n a b c Ha Hb Hc S E. 
  assert (St : v_strides gy = [a * c; c; 1]).
  { unfold standard in S. rewrite S, E. rewrite std_row_major by (simpl; nia). simpl. f_equal; [nia|f_equal; nia]. }
  exists (vpermute [1;0;2] gy). eexists. split; [|split].
  - unfold v_transpose. rewrite E. reflexivity.
  - unfold reduce_grad. cbn [contents tab a_shape vpermute v_shape map]. rewrite E. cbn [nth].
    destruct (shape_eqb [a; b; c] [n; a; b; c]) eqn:Q; [apply shape_eqb_ok in Q; discriminate|]. cbn [orb].
    change (preprocess_axes (length [n; a; b; c]) [0%Z] false) with (Some [0]). cbn [bind sort fold_left fold_right insert_sorted length Nat.leb insert_at].
    unfold into_shape at 1. cbn [contents tab a_shape vpermute v_shape map]. rewrite E. cbn [nth]. replace (prod [1; a; b; c]) with (prod [a; b; c]) by (simpl; lia). rewrite Nat.eqb_refl. cbn [bind].
    unfold broadcast. cbn [a_shape]. assert (CB : can_broadcast [1; a; b; c] [n; a; b; c] = true).
    { unfold can_broadcast. simpl. rewrite !Nat.eqb_refl, orb_true_r. reflexivity. }
    rewrite CB. reflexivity.
  - assert (W : view_ok (vpermute [1;0;2] gy)) by reflexivity.
    apply (v_reduce_grad_none zero); [exact W| | |].
    + intros R. specialize (R [1;0;0]). cbn [vpermute v_shape map position v_strides] in R. unfold position in R. cbn [v_strides vpermute map] in R. rewrite E, St in R. cbn [nth] in R.
      assert (Q : in_bounds [a;b;c] [1;0;0]) by (repeat constructor; lia). apply R in Q. simpl in Q. nia.
    + intros R. specialize (R [0;0;1]). cbn [vpermute v_shape map] in R. unfold position in R. cbn [v_strides vpermute map] in R. rewrite E, St in R. cbn [nth] in R.
      assert (Q : in_bounds [a;b;c] [0;0;1]) by (repeat constructor; lia). apply R in Q. simpl in Q. nia.
    + cbn [vpermute v_shape map]. rewrite E. discriminate.
Qed.
Print Assumptions C76_sum_then_transpose_panics.

(** gather_common reads the indices in logical order whatever their layout; gather does so for
    row-major and for non-contiguous indices, and otherwise takes them in the order of memory. *)
Theorem C76_gather : forall (A : Type) (zero : A) axis (idx : view Z) (param : arr A), view_ok idx ->
  v_off idx + prod (v_shape idx) <= length (v_mem idx) ->
  v_gather zero true axis idx param = gather zero true axis (contents 0%Z idx) param /\
  (row_major_view idx \/ is_contiguous (v_shape idx) (v_strides idx) = false ->
    v_gather zero false axis idx param = gather zero false axis (contents 0%Z idx) param) /\
  (is_contiguous (v_shape idx) (v_strides idx) = true ->
    v_gather zero false axis idx param = gather zero false axis (Arr (v_shape idx) (raw idx)) param).
Proof.
  intros A zero axis idx param W B. split; [|split].
  - apply v_gather_logical. auto.
  - intros [R|N]; apply v_gather_logical; auto. right. right. symmetry. apply raw_data; assumption.
  - apply v_gather_contiguous.
Qed.
Print Assumptions C76_gather.
Theorem C76_gather_refuted :
  let x := View [0;1;2;3]%Z 0 [2;2] [2;1] in let p := Arr [4] [10;11;12;13]%Z in
  exists t, v_transpose false [1;0]%Z x = Some t /\
    gather 0%Z false 0 (contents 0%Z t) p = Some (Arr [2;2] [10;12;11;13]%Z) /\
    v_gather 0%Z false 0 t p = Some (Arr [2;2] [10;11;12;13]%Z).
Proof. cbv zeta. eexists. split; [reflexivity|]. split; reflexivity. Qed.
Print Assumptions C76_gather_refuted.

(** The gradient of gather is right for row-major gradients, and for one-dimensional indices also for column-major
    ones; it panics for gradients stored in neither way. *)
Theorem C76_gather_gradient : forall (A : Type) (zero : A) add axis (idx : view Z) (param : arr A) (gy : view A), view_ok gy ->
  (row_major_view gy \/
   (column_major_view gy /\ length (v_shape idx) = 1 /\
    v_shape gy = firstn (Z.to_nat axis) (a_shape param) ++ v_shape idx ++ skipn (S (Z.to_nat axis)) (a_shape param)) ->
    v_gather_grad zero add axis idx (a_shape param) gy = gather_grad zero add axis (contents 0%Z idx) param (contents zero gy)) /\
  (~ row_major_view gy -> ~ column_major_view gy -> v_gather_grad zero add axis idx (a_shape param) gy = None).
Proof.
  intros A zero add axis idx param gy W. split.
  - intros [R|(C & L & E)]; [apply v_gather_grad_row; assumption|apply v_gather_grad_flat; assumption].
  - apply v_gather_grad_none. exact W.
Qed.
Print Assumptions C76_gather_gradient.
(** With two-dimensional indices a column-major gradient is added to the wrong rows. *)
Theorem C76_gather_gradient_refuted :
  let idx := View [0;1;2;3]%Z 0 [2;2] [2;1] in let p := Arr [4] [0;0;0;0]%Z in let g := View [5;6;7;8]%Z 0 [2;2] [2;1] in
  exists t, v_transpose true [1;0]%Z g = Some t /\ contents 0%Z t = Arr [2;2] [5;7;6;8]%Z /\
    gather_grad 0%Z Z.add 0 (contents 0%Z idx) p (contents 0%Z t) = Some (Arr [4] [5;7;6;8]%Z) /\
    v_gather_grad 0%Z Z.add 0 idx (a_shape p) t = Some (Arr [4] [5;6;7;8]%Z).
Proof. cbv zeta. eexists. split; [reflexivity|]. split; [reflexivity|]. split; reflexivity. Qed.
Print Assumptions C76_gather_gradient_refuted.

(** setdiff1d takes row-major operands and panics for all others. *)
Theorem C76_setdiff1d : forall x y : view Z, view_ok x -> view_ok y ->
  v_off x + prod (v_shape x) <= length (v_mem x) -> v_off y + prod (v_shape y) <= length (v_mem y) ->
  (row_major_view x -> row_major_view y -> v_setdiff1d x y = Some (setdiff1d (a_data (contents 0%Z x)) (a_data (contents 0%Z y)))) /\
  (~ (row_major_view x /\ row_major_view y) -> v_setdiff1d x y = None).
Proof.
  intros x y Wx Wy Bx By. unfold v_setdiff1d. split.
  - intros Rx Ry. rewrite (proj2 (is_standard_iff x Wx) Rx), (proj2 (is_standard_iff y Wy) Ry). simpl. rewrite <- (raw_data 0%Z x Bx Rx), <- (raw_data 0%Z y By Ry). reflexivity.
  - intros N. destruct (is_standard x) eqn:Sx, (is_standard y) eqn:Sy; try reflexivity. exfalso. apply N. split; apply is_standard_iff; assumption.
Qed.
Print Assumptions C76_setdiff1d.

(** argmax and argmin of operands in standard layout are those of C43. *)
Lemma c_strides_row_major sh : c_strides sh = row_major sh.
Proof. induction sh as [|d sh IH]; simpl; [reflexivity|]. rewrite IH. reflexivity. Qed.
Lemma owned_standard {A} (zero : A) v m : standard v -> prod (v_shape v) <> 0 -> wf m -> a_shape m = v_shape v -> owned_as zero v m = to_s m.
Proof.
  intros S P Wm Em. unfold owned_as, to_s, is_contiguous. unfold standard in S. rewrite S, (proj2 (shape_eqb_ok _ _) eq_refl). simpl.
  rewrite Em, c_strides_row_major, std_row_major by exact P. f_equal.
  transitivity (a_data (tab (a_shape m) (aget zero m))); [|rewrite (tab_aget zero m Wm); reflexivity]. rewrite Em. cbn [tab a_data]. rewrite <- ravel_indices, map_map. apply map_ext_in. intros i Hi.
  destruct (find (fun i0 => stride_sum (row_major (v_shape v)) i0 =? ravel (v_shape v) i) (indices (v_shape v))) as [j|] eqn:F.
  - apply find_some in F. destruct F as [Hj E]. apply Nat.eqb_eq in E. rewrite row_major_ravel in E. apply indices_in in Hi. apply indices_in in Hj.
    rewrite (ravel_inj _ _ _ Hj Hi E). reflexivity.
  - exfalso. eapply find_none in F; [|exact Hi]. simpl in F. rewrite row_major_ravel, Nat.eqb_refl in F. discriminate.
Qed.
Theorem C76_argmax : forall (A : Type) (zero one : A) add mul eqb of_nat comp default keep axis (v : view A), standard v -> prod (v_shape v) <> 0 ->
  v_argx_helper zero one add mul eqb of_nat comp default keep axis v =
  argx_helper zero one add mul eqb of_nat comp default keep axis (contents zero v).
Proof.
  intros A zero one add mul eqb of_nat comp default keep axis v S P. unfold v_argx_helper, argx_helper. cbv zeta.
  destruct (Argx_Model.normalize_axis axis (length (a_shape (contents zero v)))) as [k|]; [|reflexivity].
  destruct (mask zero one eqb comp default k (contents zero v)) as [mk|] eqn:M; [|reflexivity].
  assert (Q : wf mk /\ a_shape mk = v_shape v).
  { unfold mask in M. destruct (fold_axis zero (contents zero v) k default comp); [|discriminate]. injection M as <-. split; [apply tab_wf|reflexivity]. }
  destruct Q as [Q1 Q2]. rewrite (owned_standard zero v mk S P Q1 Q2). reflexivity.
Qed.
Print Assumptions C76_argmax.
(** Along the first axis of a column-major operand the results come in the wrong places. *)
Theorem C76_argmax_refuted :
  let x := View [1;0;1;0; 0;1;1;0]%Z 0 [2;2;2] [4;2;1] in
  let argmax := v_argx_helper 0%Z 1%Z Z.add Z.mul Z.eqb Z.of_nat Z.max (-100)%Z false 0%Z in
  exists t, v_transpose false [2;1;0]%Z x = Some t /\ contents 0%Z t = Arr [2;2;2] [1;0;1;1; 0;1;0;0]%Z /\
    argx_helper 0%Z 1%Z Z.add Z.mul Z.eqb Z.of_nat Z.max (-100)%Z false 0%Z (contents 0%Z t) = Some (Arr [2;2] [0;1;0;0]%Z) /\
    argmax t = Some (Arr [2;2] [0;0;1;0]%Z).
Proof. cbv zeta. eexists. split; [reflexivity|]. split; [reflexivity|]. split; vm_compute; reflexivity. Qed.
Print Assumptions C76_argmax_refuted.

(** The filter gradient of conv2d_transpose reads row-major operands right. *)
Theorem C76_conv2d_transpose_filter : forall (A : Type) (zero : A) add mul uninit p s d (gy x : view A) w,
  v_off gy + prod (v_shape gy) <= length (v_mem gy) -> v_off x + prod (v_shape x) <= length (v_mem x) ->
  row_major_view gy -> row_major_view x ->
  v_conv2d_transpose_filter_grad zero add mul uninit p s d gy x w =
  conv2d_transpose_filter_grad zero add mul uninit p s d (contents zero gy) (contents zero x) w.
Proof.
  intros A zero add mul uninit p s d gy x w Bg Bx Rg Rx. unfold v_conv2d_transpose_filter_grad.
  rewrite <- (raw_data zero gy Bg Rg), <- (raw_data zero x Bx Rx). reflexivity.
Qed.
Print Assumptions C76_conv2d_transpose_filter.
(** Images that were transposed are read as if they had not been. *)
Theorem C76_conv2d_transpose_filter_refuted :
  let x := View [1;2;3;4]%Z 0 [1;1;2;2] [4;4;2;1] in
  let gy := View [0;1;0;0]%Z 0 [1;1;2;2] [4;4;2;1] in let w := Arr [1;1;1;1] [1%Z] in
  exists t, v_transpose false [0;1;3;2]%Z x = Some t /\ contents 0%Z t = Arr [1;1;2;2] [1;3;2;4]%Z /\
    conv2d_transpose_filter_grad 0%Z Z.add Z.mul (fun _ => 0%Z) 0 1 1 (contents 0%Z gy) (contents 0%Z t) w = KOk (Arr [1;1;1;1] [3%Z]) /\
    v_conv2d_transpose_filter_grad 0%Z Z.add Z.mul (fun _ => 0%Z) 0 1 1 gy t w = KOk (Arr [1;1;1;1] [2%Z]).
Proof. cbv zeta. eexists. split; [reflexivity|]. split; [reflexivity|]. split; vm_compute; reflexivity. Qed.
Print Assumptions C76_conv2d_transpose_filter_refuted.

Example C76_hypotheses_met :
  let x := View [9;1;2;3;4;5;6]%Z 1 [2;3] [3;1] in let c := View [1;2;3;4]%Z 0 [2;2] [1;2] in
  let g := View [1;2;3;4;5;6;7;8]%Z 0 [2;2;2] [4;2;1] in
  (view_ok x /\ row_major_view x /\ v_off x + prod (v_shape x) <= length (v_mem x) /\ is_standard x = true) /\
  (view_ok c /\ column_major_view c /\ is_standard c = false /\ v_expand [1%Z] c = Some (View [1;2;3;4]%Z 0 [2;1;2] [1;2;2])) /\
  (standard g /\ v_shape g = [2;2;2] /\ prod (v_shape g) <> 0 /\
   exists t, v_transpose false [1;0;2]%Z g = Some t /\ view_ok t /\ ~ row_major_view t /\ ~ column_major_view t).
Proof.
  cbv zeta. split; [|split].
  - split; [reflexivity|]. split; [apply is_standard_iff; reflexivity|]. split; [simpl; lia|reflexivity].
  - split; [reflexivity|]. split; [apply is_column_iff; reflexivity|]. split; reflexivity.
  - split; [reflexivity|]. split; [reflexivity|]. split; [discriminate|]. eexists. split; [reflexivity|]. split; [reflexivity|]. split.
    + rewrite <- is_standard_iff by reflexivity. discriminate.
    + rewrite <- is_column_iff by reflexivity. discriminate.
Qed.
