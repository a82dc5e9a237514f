(** The operations of Layout_Model.v against those on arrays: lemmas for C76. *)
From Coq Require Import List Arith ZArith Bool Lia Permutation.
Import ListNotations.
From Verif Require Import Array_Model Array_Proofs Arith_Model Reduce_Model Argx_Model Shape_Model Shape_Proofs Shape_Proofs3 Batch_Model Batch_Proofs Arith_Proofs Layout_Model Layout_Spec Layout_Proofs.

Section L.
Context {A : Type} (zero : A).
Implicit Types v w : view A.

(** ** reshape *)
Lemma deep_copy_standard v : view_ok (deep_copy zero v) /\ row_major_view (deep_copy zero v).
Proof.
  split.
  - unfold view_ok. simpl. unfold std_strides. destruct (_ =? 0); [apply repeat_length|apply row_major_length].
  - intros i Hi. apply std_stride_sum. exact Hi.
Qed.
Lemma deep_copy_contents v : contents zero (deep_copy zero v) = contents zero v.
Proof.
  apply contents_ext; [reflexivity|]. intros i Hi. simpl in Hi. unfold vget at 1. simpl. rewrite std_stride_sum by exact Hi.
  change (nth (ravel (v_shape v) i) (map (vget zero v) (indices (v_shape v))) zero) with (aget zero (tab (v_shape v) (vget zero v)) i).
  apply aget_tab. exact Hi.
Qed.
Lemma v_reshape_eq dims v : view_ok v -> option_map (contents zero) (v_reshape zero dims v) = reshape dims (contents zero v).
Proof.
  intros W. unfold v_reshape, reshape. replace (length (a_data (contents zero v))) with (prod (v_shape v)) by (symmetry; apply (contents_wf zero v)).
  destruct (reshape_dims (prod (v_shape v)) dims dims) as [target|]; [|reflexivity]. cbn [bind].
  destruct (deep_copy_standard v) as [D1 D2].
  assert (Q : option_map (contents zero) (v_into_shape (deep_copy zero v) target) = into_shape (contents zero v) target).
  { rewrite <- (deep_copy_contents v). apply v_into_shape_row_eq; assumption. }
  destruct (is_standard v) eqn:S; [|exact Q]. apply is_standard_iff in S; [|exact W].
  rewrite <- (v_into_shape_row_eq zero v target W S) in *. destruct (v_into_shape v target) as [w|]; [reflexivity|exact Q].
Qed.

(** ** transpose *)
Lemma list_sum_perm l l' : Permutation l l' -> list_sum l = list_sum l'.
Proof. intros H. induction H; simpl; lia. Qed.
Lemma stride_sum_seq st : forall i, length i = length st -> stride_sum st i = list_sum (map (fun k => nth k st 0 * nth k i 0) (seq 0 (length st))).
Proof.
  induction st as [|s st IH]; intros [|k i] H; simpl in *; try discriminate; [reflexivity|]. rewrite IH by congruence.
  rewrite <- (seq_shift (length st) 0), map_map. reflexivity.
Qed.
Lemma is_perm_perm p : is_perm p = true -> Permutation (seq 0 (length p)) p.
Proof.
  intros H. unfold is_perm in H. rewrite forallb_forall in H. apply NoDup_Permutation_bis.
  - apply seq_NoDup.
  - rewrite seq_length. lia.
  - intros k Hk. specialize (H k Hk). apply existsb_exists in H. destruct H as (j & Hj & E). apply Nat.eqb_eq in E. subst. exact Hj.
Qed.
Lemma pos_of_nth p : NoDup p -> forall m, m < length p -> pos_of (nth m p 0) p = m.
Proof.
  intros N. induction N as [|x p Hx N IH]; intros m Hm; simpl in Hm; [lia|]. destruct m as [|m]; simpl.
  - rewrite Nat.eqb_refl. reflexivity.
  - destruct (Nat.eqb_spec x (nth m p 0)) as [E|E]; [exfalso; apply Hx; rewrite E; apply nth_In; lia|]. f_equal. apply IH. lia.
Qed.
Lemma vpermute_contents p v : view_ok v -> is_perm p = true -> length p = length (v_shape v) ->
  contents zero (vpermute p v) = permute zero p (contents zero v).
Proof.
  intros W H L. pose proof (is_perm_perm p H) as PM. assert (N : NoDup p) by (eapply Permutation_NoDup; [exact PM|apply seq_NoDup]).
  unfold permute. cbn [contents tab a_shape]. unfold contents at 1. cbn [vpermute v_shape]. apply tab_ext. intros j Hj.
  pose proof (in_bounds_length _ _ Hj) as Lj. rewrite map_length in Lj.
  set (i := map (fun k => nth (pos_of k p) j 0) (seq 0 (length (v_shape v)))).
  assert (Li : length i = length (v_shape v)) by (unfold i; rewrite map_length, seq_length; reflexivity).
  assert (Ni : forall k, k < length (v_shape v) -> nth k i 0 = nth (pos_of k p) j 0) by (intros k Hk; unfold i; exact (nth_map_seq (fun k => nth (pos_of k p) j 0) _ 0 k Hk)).
  assert (Hi : in_bounds (v_shape v) i).
  { assert (G : forall k, k < length (v_shape v) -> nth k i 0 < nth k (v_shape v) 0).
    { intros k Hk. rewrite Ni by exact Hk. assert (Ik : In k p) by (apply (Permutation_in _ PM); apply in_seq; lia).
      destruct (pos_of_in k p Ik) as [Q1 Q2].
      pose proof (fun q => in_bounds_nth _ _ (pos_of k p) Hj q) as Q. rewrite map_length in Q. specialize (Q Q1).
      change (map (fun k => nth k (v_shape v) 0) p) with (pull p (v_shape v)) in Q. rewrite pull_nth, Q2 in Q by exact Q1. exact Q. }
    clear - Li G. revert Li G. generalize (v_shape v) as sh. revert i. intros i. induction i as [|a i IH]; intros [|d sh] Li G; try discriminate; [constructor|].
    constructor; [apply (G 0); simpl; lia|]. apply IH; [simpl in Li; congruence|]. intros k Hk. apply (G (S k)). simpl. lia. }
  fold (contents zero v). change (aget zero {| a_shape := v_shape v; a_data := map (vget zero v) (indices (v_shape v)) |} i) with (aget zero (contents zero v) i).
  unfold contents. rewrite aget_tab by exact Hi. unfold vget. cbn [vpermute v_off v_strides v_mem]. f_equal. f_equal.
  rewrite (stride_sum_seq (map _ p)) by (rewrite map_length; exact Lj). rewrite map_length.
  rewrite (stride_sum_seq (v_strides v)) by (rewrite Li; symmetry; exact W).
  set (f := fun k => nth k (v_strides v) 0 * nth (pos_of k p) j 0).
  transitivity (list_sum (map f p)).
  - f_equal. apply (nth_ext _ _ 0 0); [rewrite !map_length, seq_length; reflexivity|]. intros m Hm. rewrite map_length, seq_length in Hm.
    rewrite nth_map_seq by exact Hm. replace (nth m (map f p) 0) with (f (nth m p 0)) by (rewrite <- (map_nth f); apply nth_indep; rewrite map_length; exact Hm). unfold f.
    rewrite pos_of_nth by assumption. f_equal. apply (pull_nth p (v_strides v)). exact Hm.
  - rewrite (list_sum_perm _ (map f (seq 0 (length p)))) by (apply Permutation_map; symmetry; exact PM). f_equal.
    rewrite W, <- L. apply map_ext_in. intros k Hk. apply in_seq in Hk. unfold f. rewrite Ni by lia. reflexivity.
Qed.
Lemma plain_length l : forall r, plain_indices l = Some r -> length r = length l.
Proof.
  induction l as [|z l IH]; intros r H; simpl in H; [injection H as <-; reflexivity|]. destruct (z <? 0)%Z; [discriminate|].
  destruct (plain_indices l) as [q|]; [|discriminate]. injection H as <-. simpl. rewrite (IH q eq_refl). reflexivity.
Qed.
Lemma invert_length p d : invert_perm p = Some d -> length d = length p.
Proof.
  unfold invert_perm. destruct (_ && _); [|discriminate]. intros H. injection H as <-. 
  assert (G : forall (l : list (nat * nat)) acc, length (fold_left (fun dims q => set_at (snd q) (fst q) dims) l acc) = length acc).
  { induction l as [|q l IH]; intros acc; simpl; [reflexivity|]. rewrite IH. apply set_length. }
  rewrite G. apply repeat_length.
Qed.
Lemma v_transpose_eq invert perm v : view_ok v -> option_map (contents zero) (v_transpose invert perm v) = transpose zero invert perm (contents zero v).
Proof.
  intros W. unfold v_transpose, transpose. cbn [contents tab a_shape]. fold (contents zero v).
  destruct (Nat.eqb_spec (length perm) (length (v_shape v))) as [L|L]; [|reflexivity].
  destruct (plain_indices perm) as [p|] eqn:E; [|reflexivity]. cbn [bind]. apply plain_length in E.
  destruct (if invert then invert_perm p else Some p) as [d|] eqn:D; [|reflexivity]. cbn [bind].
  assert (Ld : length d = length p) by (destruct invert; [apply invert_length; exact D|injection D as <-; reflexivity]).
  destruct (is_perm d) eqn:I; [|reflexivity]. cbn [option_map]. f_equal. apply vpermute_contents; auto. congruence.
Qed.
Lemma v_transpose_ok invert perm v w : view_ok v -> v_transpose invert perm v = Some w -> view_ok w.
Proof.
  intros W. unfold v_transpose. destruct (_ =? _); [|discriminate]. destruct (plain_indices perm); [|discriminate]. cbn [bind].
  destruct (if invert then _ else _); [|discriminate]. cbn [bind]. destruct (is_perm _); [|discriminate]. intros H. injection H as <-. unfold view_ok. simpl. rewrite !map_length. reflexivity.
Qed.

(** ** slices *)
Lemma stride_sum_plus st : forall i j, length i = length j -> stride_sum st (map2 Nat.add i j) = stride_sum st i + stride_sum st j.
Proof.
  induction st as [|s st IH]; intros [|a i] [|b j] H; simpl in *; try discriminate; try reflexivity. rewrite IH by congruence. lia.
Qed.
Lemma v_slice_contents rs v : Forall2 range_ok rs (v_shape v) -> contents zero (v_slice rs v) = read_ranges zero (contents zero v) rs.
Proof.
  intros R. unfold read_ranges, contents at 1. cbn [v_slice v_shape]. apply tab_ext. intros i Hi.
  pose proof (in_bounds_length _ _ Hi) as Li. rewrite map_length in Li.
  assert (E : map2 (fun (r : nat * nat) k => fst r + k) rs i = map2 Nat.add (map fst rs) i).
  { clear. revert i. induction rs as [|r rs IH]; intros [|a i]; simpl; try reflexivity. rewrite IH. reflexivity. }
  assert (B : in_bounds (v_shape v) (map2 (fun (r : nat * nat) k => fst r + k) rs i)).
  { clear - R Hi. revert i Hi. induction R as [|r d rs sh Hr R IH]; intros i Hi; inversion Hi as [|a b i' sh' Ha Hi' E1 E2]; subst; simpl; constructor.
    - unfold range_ok in Hr. lia.
    - apply IH. exact Hi'. }
  unfold contents. rewrite aget_tab by exact B. unfold vget. cbn [v_slice v_off v_strides v_mem]. f_equal. rewrite E, stride_sum_plus by (rewrite map_length; congruence). lia.
Qed.
Lemma v_slice_forward_eq sl v : option_map (contents zero) (v_slice_forward sl v) = slice_forward zero sl (contents zero v).
Proof.
  unfold v_slice_forward, slice_forward. cbn [contents tab a_shape]. fold (contents zero v).
  destruct (ranges (v_shape v) sl) as [rs|] eqn:E; [|reflexivity]. cbn [bind option_map]. f_equal. apply v_slice_contents. apply (ranges_ok _ _ _ E).
Qed.
Lemma v_split_forward_eq axis start stop v : option_map (contents zero) (v_split_forward axis start stop v) = split_forward zero axis start stop (contents zero v).
Proof.
  unfold v_split_forward, split_forward. change (a_shape (contents zero v)) with (v_shape v).
  destruct (normalize_axis axis (length (v_shape v))) as [k|]; [|reflexivity]. cbn [bind].
  destruct (split_slices (length (v_shape v)) k start stop) as [sl|]; [|reflexivity]. cbn [bind]. apply v_slice_forward_eq.
Qed.

(** ** squeeze *)
Lemma stride_sum_insert0 k : forall st i, k < length st -> length i + 1 = length st ->
  stride_sum (remove_at k st) i = stride_sum st (insert_at k 0 i).
Proof.
  induction k as [|k IH]; intros [|s st] i Hk L; simpl in *; try lia. destruct i as [|a i]; simpl in *; [lia|]. rewrite IH by lia. reflexivity.
Qed.
Lemma v_index0_ok k v : view_ok v -> view_ok (v_index0 k v).
Proof.
  unfold view_ok. simpl. revert k. generalize (v_shape v) as sh. induction (v_strides v) as [|s st IH]; intros [|d sh] [|k] H; simpl in *; try discriminate; try reflexivity; try congruence.
  f_equal. apply IH. congruence.
Qed.
Lemma v_index0_contents k v : view_ok v -> nth_error (v_shape v) k = Some 1 -> drop_unit zero k (contents zero v) = Some (contents zero (v_index0 k v)).
Proof.
  intros W E. unfold drop_unit. change (a_shape (contents zero v)) with (v_shape v). rewrite E. f_equal. unfold contents at 2. cbn [v_index0 v_shape].
  assert (Hk : k < length (v_shape v)) by (apply nth_error_Some; congruence). apply tab_ext. intros j Hj.
  assert (B : in_bounds (v_shape v) (insert_at k 0 j)).
  { rewrite <- (insert_remove_nth k 0 (v_shape v) Hk). apply nth_error_nth with (d := 0) in E. rewrite E.
    apply in_bounds_insert; [rewrite remove_length by exact Hk; lia|]. split; [lia|exact Hj]. }
  unfold contents. rewrite aget_tab by exact B. unfold vget. cbn [v_index0 v_off v_strides v_mem]. f_equal. f_equal. symmetry. apply stride_sum_insert0.
  - rewrite W. exact Hk.
  - rewrite (in_bounds_length _ _ Hj), remove_length, W by exact Hk. lia.
Qed.
Lemma v_squeeze_loop_eq axes : forall adjust v, view_ok v -> option_map (contents zero) (v_squeeze_loop adjust axes v) = squeeze_loop zero adjust axes (contents zero v).
Proof.
  induction axes as [|i axes IH]; intros adjust v W; [reflexivity|]. cbn [v_squeeze_loop squeeze_loop]. change (a_shape (contents zero v)) with (v_shape v).
  cbv zeta. destruct (_ <? 0)%Z; [reflexivity|].
  match goal with |- context [Z.to_nat ?z] => set (k := Z.to_nat z) end.
  destruct (nth_error (v_shape v) k) as [d|] eqn:E.
  - destruct d as [|[|d]]; try (unfold drop_unit; change (a_shape (contents zero v)) with (v_shape v); rewrite E; reflexivity).
    rewrite v_index0_contents by assumption. cbn [bind]. apply IH. apply v_index0_ok. exact W.
  - unfold drop_unit. change (a_shape (contents zero v)) with (v_shape v). rewrite E. reflexivity.
Qed.
Lemma v_squeeze_eq axes v : view_ok v -> option_map (contents zero) (v_squeeze axes v) = squeeze zero axes (contents zero v).
Proof. apply v_squeeze_loop_eq. Qed.

(** ** expand_dims *)
Lemma columns_expand ndim axes : forall sh out, expand_shape ndim axes sh = Some out -> columns out = columns sh /\ prod out = prod sh.
Proof.
  induction axes as [|i axes IH]; intros sh out H; simpl in H; [injection H as <-; auto|]. destruct (_ <? 0)%Z; [discriminate|].
  match type of H with (if ?b then _ else _) = _ => destruct b eqn:B; [|discriminate] end. apply Nat.leb_le in B.
  destruct (IH _ _ H) as [Q1 Q2]. rewrite columns_insert1 in Q1 by exact B. rewrite prod_insert in Q2. split; [exact Q1|lia].
Qed.
Lemma fortran_contents v sh : column_major_view v -> columns sh = columns (v_shape v) -> prod sh = prod (v_shape v) ->
  into_shape (contents zero v) sh = Some (contents zero (View (v_mem v) (v_off v) sh (fortran_strides sh))).
Proof.
  intros C Q P. unfold into_shape. change (a_shape (contents zero v)) with (v_shape v). rewrite (proj2 (Nat.eqb_eq _ _) (eq_sym P)). f_equal.
  rewrite (column_major_data zero v C), <- Q, <- (fortran_data zero). reflexivity.
Qed.
Lemma v_into_shape_same v sh : view_ok v -> row_major_view v \/ column_major_view v -> columns sh = columns (v_shape v) -> prod sh = prod (v_shape v) ->
  option_map (contents zero) (v_into_shape v sh) = into_shape (contents zero v) sh.
Proof.
  intros W H Q P. destruct (row_dec v W) as [R|R]; [apply v_into_shape_row_eq; assumption|]. destruct H as [H|C]; [contradiction|].
  rewrite v_into_shape_column by auto. cbn [option_map]. symmetry. apply fortran_contents; assumption.
Qed.
Lemma v_expand_eq axes v : view_ok v -> row_major_view v \/ column_major_view v ->
  option_map (contents zero) (v_expand axes v) = expand axes (contents zero v).
Proof.
  intros W H. unfold v_expand, expand. change (a_shape (contents zero v)) with (v_shape v).
  destruct (expand_shape (length (v_shape v)) (sortZ axes) (v_shape v)) as [out|] eqn:E; [|reflexivity]. cbn [bind].
  destruct (columns_expand _ _ _ _ E). apply v_into_shape_same; auto.
Qed.
Lemma v_expand_none axes v : view_ok v -> ~ row_major_view v -> ~ column_major_view v -> v_expand axes v = None.
Proof. intros W R C. unfold v_expand. destruct (expand_shape _ _ _); [|reflexivity]. cbn [bind]. apply v_into_shape_other; assumption. Qed.

(** ** access_elem *)
Lemma v_access_row i v : view_ok v -> row_major_view v -> v_access_elem zero i v = access_elem zero i (contents zero v).
Proof.
  intros W R. unfold v_access_elem, access_elem. pose proof (contents_wf zero v) as Wc. unfold wf in Wc. rewrite Wc. change (a_shape (contents zero v)) with (v_shape v).
  pose proof (v_into_shape_row_eq zero v [prod (v_shape v)] W R) as E. unfold into_shape in E. change (a_shape (contents zero v)) with (v_shape v) in E.
  assert (P1 : prod [prod (v_shape v)] = prod (v_shape v)) by (simpl; lia). rewrite P1, Nat.eqb_refl in E.
  destruct (v_into_shape v [prod (v_shape v)]) as [w|]; [|discriminate]. cbn [bind]. cbn [option_map] in E.
  destruct (elem_pos (prod (v_shape v)) i) as [k|] eqn:K; [|reflexivity]. cbn [bind]. f_equal. f_equal. f_equal.
  assert (Hk : k < prod (v_shape v)).
  { unfold elem_pos in K. match type of K with (if ?b then _ else _) = _ => destruct b eqn:B; [|discriminate] end. injection K as <-. lia. }
  assert (Ew : contents zero w = Arr [prod (v_shape v)] (a_data (contents zero v))) by congruence.
  assert (Sw : v_shape w = [prod (v_shape v)]) by (change (v_shape w) with (a_shape (contents zero w)); rewrite Ew; reflexivity).
  assert (Bw : in_bounds (v_shape w) [k]) by (rewrite Sw; repeat constructor; exact Hk).
  rewrite <- (aget_tab zero (v_shape w) (vget zero w) [k] Bw). fold (contents zero w). rewrite Ew. unfold aget. simpl. f_equal. lia.
Qed.
Lemma elem_pos_lt n i k : elem_pos n i = Some k -> k < n.
Proof. unfold elem_pos. match goal with |- (if ?b then _ else _) = _ -> _ => destruct b eqn:B; [|discriminate] end. intros H. injection H as <-. lia. Qed.
(** Every number below the size is the column-major number of an index. *)
Lemma column_index sh k : k < prod sh -> exists i, in_bounds sh i /\ ravel (rev sh) (rev i) = k.
Proof.
  intros H. rewrite <- prod_rev in H. assert (I : In k (seq 0 (prod (rev sh)))) by (apply in_seq; lia). rewrite <- ravel_indices in I.
  apply in_map_iff in I. destruct I as (j & E & J). apply indices_in in J. exists (rev j). split.
  - apply in_bounds_rev in J. rewrite rev_involutive in J. exact J.
  - rewrite rev_involutive. exact E.
Qed.
Lemma v_access_column i v k : view_ok v -> column_major_view v -> ~ row_major_view v -> elem_pos (prod (v_shape v)) i = Some k ->
  exists idx, in_bounds (v_shape v) idx /\ ravel (rev (v_shape v)) (rev idx) = k /\
    v_access_elem zero i v = Some (Arr [] [aget zero (contents zero v) idx]).
Proof.
  intros W C N K. pose proof (elem_pos_lt _ _ _ K) as Hk. destruct (column_index _ _ Hk) as (idx & Hi & Ei). exists idx. split; [exact Hi|]. split; [exact Ei|].
  unfold v_access_elem. rewrite v_into_shape_column by (auto; simpl; lia). cbn [bind]. rewrite K. cbn [bind]. f_equal. f_equal. f_equal.
  unfold contents. rewrite aget_tab by exact Hi. unfold vget. cbn [v_off v_strides v_mem]. f_equal. f_equal.
  change (stride_sum (v_strides v) idx) with (position v idx). rewrite (C idx Hi), Ei. rewrite fortran_stride_sum by (repeat constructor; exact Hk). simpl. lia.
Qed.
Lemma v_access_none i v : view_ok v -> ~ row_major_view v -> ~ column_major_view v -> v_access_elem zero i v = None.
Proof. intros W R C. unfold v_access_elem. rewrite v_into_shape_other by assumption. reflexivity. Qed.

(** ** Gradients of reductions *)
Definition insert_axes (ax : list nat) (sh : option (list nat)) : option (list nat) :=
  fold_left (fun sh k => bind sh (fun sh => if k <=? length sh then Some (insert_at k 1 sh) else None)) ax sh.
Lemma insert_axes_none ax : insert_axes ax None = None.
Proof. induction ax as [|k ax IH]; [reflexivity|]. exact IH. Qed.
Lemma columns_axes ax : forall sh out, insert_axes ax (Some sh) = Some out -> columns out = columns sh /\ prod out = prod sh.
Proof.
  induction ax as [|k ax IH]; intros sh out H; [injection H as <-; auto|]. unfold insert_axes in H. simpl in H.
  destruct (Nat.leb_spec k (length sh)) as [L|L]; [|fold (insert_axes ax None) in H; rewrite insert_axes_none in H; discriminate].
  destruct (IH _ _ H) as [Q1 Q2]. rewrite columns_insert1 in Q1 by exact L. rewrite prod_insert in Q2. split; [exact Q1|lia].
Qed.
Lemma v_reduce_grad_eq make sparse axes target v : view_ok v -> row_major_view v \/ column_major_view v ->
  v_reduce_grad zero make sparse axes target v = reduce_grad zero make sparse axes target (contents zero v).
Proof.
  intros W H. unfold v_reduce_grad, reduce_grad. change (a_shape (contents zero v)) with (v_shape v).
  destruct (shape_eqb (v_shape v) target); [reflexivity|]. destruct (make || is_scalar_shape (v_shape v)); [|reflexivity].
  destruct (preprocess_axes (length target) axes sparse) as [ax|]; [|reflexivity]. cbn [bind]. fold (insert_axes (sort ax) (Some (v_shape v))).
  destruct (insert_axes (sort ax) (Some (v_shape v))) as [gs|] eqn:E; [|reflexivity]. cbn [bind]. destruct (columns_axes _ _ _ E) as [Q P].
  rewrite <- (v_into_shape_same v gs W H Q P). destruct (v_into_shape v gs); reflexivity.
Qed.
Lemma v_reduce_grad_other make sparse axes target v : view_ok v -> v_shape v = target \/ (make = false /\ is_scalar_shape (v_shape v) = false) ->
  v_reduce_grad zero make sparse axes target v = reduce_grad zero make sparse axes target (contents zero v).
Proof.
  intros W H. unfold v_reduce_grad, reduce_grad. change (a_shape (contents zero v)) with (v_shape v).
  destruct (shape_eqb (v_shape v) target) eqn:E; [reflexivity|]. destruct H as [H|[-> ->]].
  - apply shape_eqb_ok in H. congruence.
  - reflexivity.
Qed.
Lemma v_reduce_grad_none sparse axes target v : view_ok v -> ~ row_major_view v -> ~ column_major_view v -> v_shape v <> target ->
  v_reduce_grad zero true sparse axes target v = None.
Proof.
  intros W R C N. unfold v_reduce_grad. destruct (shape_eqb (v_shape v) target) eqn:E; [apply shape_eqb_ok in E; contradiction|]. cbn [orb].
  destruct (preprocess_axes _ _ _); [|reflexivity]. cbn [bind]. destruct (fold_left _ _ _); [|reflexivity]. cbn [bind]. rewrite v_into_shape_other by assumption. reflexivity.
Qed.

(** ** Gather *)
Lemma v_gather_logical norm axis (idx : view Z) (param : arr A) :
  norm = true \/ is_contiguous (v_shape idx) (v_strides idx) = false \/ raw idx = a_data (contents 0%Z idx) ->
  v_gather zero norm axis idx param = gather zero norm axis (contents 0%Z idx) param.
Proof.
  intros H. unfold v_gather, gather. destruct (normalize_axis axis (length (a_shape param))) as [k|]; [|reflexivity]. cbn [bind].
  destruct (nth_error (a_shape param) k) as [n|]; [|reflexivity]. cbn [bind]. cbv zeta. change (a_shape (contents 0%Z idx)) with (v_shape idx).
  f_equal. unfold index_vector. destruct norm; [reflexivity|]. f_equal. destruct H as [H|[H|H]]; [discriminate|rewrite H; reflexivity|]. rewrite H. destruct (is_contiguous _ _); reflexivity.
Qed.
Lemma v_gather_contiguous axis (idx : view Z) (param : arr A) : is_contiguous (v_shape idx) (v_strides idx) = true ->
  v_gather zero false axis idx param = gather zero false axis (Arr (v_shape idx) (raw idx)) param.
Proof.
  intros H. unfold v_gather, gather, index_vector. rewrite H. reflexivity.
Qed.
Lemma v_gather_grad_row add axis (idx : view Z) param gy : view_ok gy -> row_major_view gy ->
  v_gather_grad zero add axis idx (a_shape param) gy = gather_grad zero add axis (contents 0%Z idx) param (contents zero gy).
Proof.
  intros W R. unfold v_gather_grad, gather_grad. destruct (axis <? 0)%Z; [reflexivity|]. cbv zeta.
  destruct (nth_error (a_shape param) (Z.to_nat axis)) as [n|]; [|reflexivity]. cbn [bind].
  pose proof (contents_wf 0%Z idx) as Wi. unfold wf in Wi. rewrite Wi. change (a_shape (contents 0%Z idx)) with (v_shape idx).
  rewrite <- (v_into_shape_row_eq zero gy _ W R). destruct (v_into_shape gy _); reflexivity.
Qed.
Lemma v_gather_grad_flat add axis (idx : view Z) param gy : view_ok gy -> column_major_view gy -> length (v_shape idx) = 1 ->
  v_shape gy = firstn (Z.to_nat axis) (a_shape param) ++ v_shape idx ++ skipn (S (Z.to_nat axis)) (a_shape param) ->
  v_gather_grad zero add axis idx (a_shape param) gy = gather_grad zero add axis (contents 0%Z idx) param (contents zero gy).
Proof.
  intros W C L E. unfold v_gather_grad, gather_grad. destruct (axis <? 0)%Z; [reflexivity|]. cbv zeta.
  destruct (nth_error (a_shape param) (Z.to_nat axis)) as [n|]; [|reflexivity]. cbn [bind].
  pose proof (contents_wf 0%Z idx) as Wi. unfold wf in Wi. rewrite Wi. change (a_shape (contents 0%Z idx)) with (v_shape idx).
  assert (Es : firstn (Z.to_nat axis) (a_shape param) ++ [prod (v_shape idx)] ++ skipn (S (Z.to_nat axis)) (a_shape param) = v_shape gy).
  { rewrite E. do 2 f_equal. destruct (v_shape idx) as [|d [|]]; try discriminate. simpl. f_equal. lia. }
  rewrite Es. rewrite <- (v_into_shape_same gy (v_shape gy) W (or_intror C) eq_refl eq_refl). destruct (v_into_shape gy (v_shape gy)); reflexivity.
Qed.
Lemma v_gather_grad_none add axis (idx : view Z) param gy : view_ok gy -> ~ row_major_view gy -> ~ column_major_view gy ->
  v_gather_grad zero add axis idx param gy = None.
Proof.
  intros W R C. unfold v_gather_grad. destruct (axis <? 0)%Z; [reflexivity|]. cbv zeta. destruct (nth_error _ _); [|reflexivity]. cbn [bind]. rewrite v_into_shape_other by assumption. reflexivity.
Qed.
End L.
