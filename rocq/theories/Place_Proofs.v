(** One operation on views agrees with the same operation on arrays. *)
From Coq Require Import String List Arith ZArith Bool Reals Lia Permutation.
Import ListNotations.
From Verif Require Import Tens_Fwd Tens_Fwd5 Tens_Build Shape_Proofs2.
From Verif Require Import Array_Model Array_Proofs Arith_Model Arith_Proofs Reduce_Model Shape_Model Shape_Proofs Shape_Proofs3 Batch_Model Batch_Proofs
  Layout_Model Layout_Spec Layout_Proofs Layout_Ops Graph_Model Eval_Model Scalar_Model Tens_Model Vjp_Spec Tens_Spec Tens_Lax Place_Model Place_Spec.
From Verif Require Conv_Model.
Local Open Scope R_scope.
Local Set Bullet Behavior "Strict Subproofs".

Lemma order_refl a : order_leb a a = true.
Proof. destruct a; reflexivity. Qed.
Lemma order_trans a b c : order_leb a b = true -> order_leb b c = true -> order_leb a c = true.
Proof. destruct a, b, c; simpl; auto. Qed.
Lemma worse_l a b : order_leb a (worse a b) = true.
Proof. destruct a, b; reflexivity. Qed.
Lemma worse_r a b : order_leb b (worse a b) = true.
Proof. destruct a, b; reflexivity. Qed.
Lemma worst_le l a : In a l -> order_leb a (fold_right worse Rows l) = true.
Proof.
  induction l as [|b l IH]; intros H; [destruct H|]. simpl. destruct H as [->|H]; [apply worse_l|].
  eapply order_trans; [apply IH; exact H|apply worse_r].
Qed.
Lemma stored_le a b v : order_leb a b = true -> stored a v -> stored b v.
Proof. destruct v as [v|l]; [|trivial]. destruct a, b; simpl; try discriminate; intros _ (W & B & H); split; auto; split; auto; tauto. Qed.
Lemma stored_any k v : stored k v -> stored Anyhow v.
Proof. apply stored_le. destruct k; reflexivity. Qed.

(** ** Layout kept by the operations that return views *)
Lemma std_ok mem off sh : view_ok (View mem off sh (std_strides sh) : view R).
Proof. unfold view_ok. simpl. unfold std_strides. destruct (_ =? 0)%nat; [apply repeat_length|apply row_major_length]. Qed.
Lemma fortran_ok mem off sh : view_ok (View mem off sh (fortran_strides sh) : view R).
Proof. unfold view_ok. simpl. unfold fortran_strides. destruct (_ =? 0)%nat; [apply repeat_length|]. rewrite rev_length, row_major_length, rev_length. reflexivity. Qed.
Lemma std_rows mem off sh : row_major_view (View mem off sh (std_strides sh) : view R).
Proof. intros i Hi. apply std_stride_sum. exact Hi. Qed.
Lemma fortran_columns mem off sh : column_major_view (View mem off sh (fortran_strides sh) : view R).
Proof. intros i Hi. apply fortran_stride_sum. exact Hi. Qed.


(** Positions in memory. *)
Lemma permute_position p (v : view R) j : view_ok v -> is_perm p = true -> length p = length (v_shape v) -> in_bounds (v_shape (vpermute p v)) j ->
  exists i, in_bounds (v_shape v) i /\ position (vpermute p v) j = position v i.
Proof.
  intros W H L Hj. cbn [vpermute v_shape] in Hj. pose proof (is_perm_perm p H) as PM. assert (N : NoDup p) by (eapply Permutation_NoDup; [exact PM|apply seq_NoDup]).
  pose proof (in_bounds_length _ _ Hj) as Lj. rewrite map_length in Lj.
  set (i := map (fun k => nth (pos_of k p) j 0%nat) (seq 0 (length (v_shape v)))).
  assert (Li : length i = length (v_shape v)) by (unfold i; rewrite map_length, seq_length; reflexivity).
  assert (Ni : forall k, (k < length (v_shape v))%nat -> nth k i 0%nat = nth (pos_of k p) j 0%nat) by (intros k Hk; unfold i; exact (nth_map_seq (fun k => nth (pos_of k p) j 0%nat) _ 0%nat k Hk)).
  exists i. split.
  { assert (G : forall k, (k < length (v_shape v) -> nth k i 0 < nth k (v_shape v) 0)%nat).
    { intros k Hk. rewrite Ni by exact Hk. assert (Ik : In k p) by (apply (Permutation_in _ PM); apply in_seq; lia).
      destruct (pos_of_in k p Ik) as [Q1 Q2].
      pose proof (fun q => in_bounds_nth _ _ (pos_of k p) Hj q) as Q. rewrite map_length in Q. specialize (Q Q1).
      change (map (fun k => nth k (v_shape v) 0%nat) p) with (pull p (v_shape v)) in Q. rewrite pull_nth, Q2 in Q by exact Q1. exact Q. }
    clear - Li G. revert Li G. generalize (v_shape v) as sh. revert i. intros i. induction i as [|a i IH]; intros [|d sh] Li G; try discriminate; [constructor|].
    constructor; [apply (G 0%nat); simpl; lia|]. apply IH; [simpl in Li; congruence|]. intros k Hk. apply (G (S k)). simpl. lia. }
  unfold position. cbn [vpermute v_strides].
  rewrite (stride_sum_seq (map _ p)) by (rewrite map_length; exact Lj). rewrite map_length.
  rewrite (stride_sum_seq (v_strides v)) by (rewrite Li; symmetry; exact W).
  set (f := fun k => (nth k (v_strides v) 0 * nth (pos_of k p) j 0)%nat).
  transitivity (list_sum (map f p)).
  - f_equal. apply (nth_ext _ _ 0%nat 0%nat); [rewrite !map_length, seq_length; reflexivity|]. intros m Hm. rewrite map_length, seq_length in Hm.
    rewrite nth_map_seq by exact Hm. replace (nth m (map f p) 0%nat) with (f (nth m p 0%nat)) by (rewrite <- (map_nth f); apply nth_indep; rewrite map_length; exact Hm). unfold f.
    rewrite pos_of_nth by assumption. f_equal. apply (pull_nth p (v_strides v)). exact Hm.
  - rewrite (list_sum_perm _ (map f (seq 0 (length p)))) by (apply Permutation_map; symmetry; exact PM). f_equal.
    rewrite W, <- L. apply map_ext_in. intros k Hk. apply in_seq in Hk. unfold f. rewrite Ni by lia. reflexivity.
Qed.
Lemma transpose_inside invert perm v w : view_ok v -> inside v -> v_transpose invert perm v = Some w -> inside w.
Proof.
  intros W B E. unfold v_transpose in E. destruct (Nat.eqb_spec (length perm) (length (v_shape v))) as [L|]; [|discriminate].
  destruct (plain_indices perm) as [p|] eqn:E1; [|discriminate]. cbn [Arith_Model.bind] in E. destruct (if invert then invert_perm p else Some p) as [d|] eqn:E2; [|discriminate E]. cbn [Arith_Model.bind] in E.
  destruct (is_perm d) eqn:E3; [|discriminate]. injection E as <-. intros j Hj.
  assert (Ld : length d = length (v_shape v)).
  { rewrite <- L, <- (plain_length _ _ E1). destruct invert; [apply invert_length; exact E2|injection E2 as <-; reflexivity]. }
  destruct (permute_position d v j W E3 Ld Hj) as (i & Hi & ->). exact (B i Hi).
Qed.
Lemma slice_inside sl v w : inside v -> v_slice_forward sl v = Some w -> inside w.
Proof.
  intros B E. unfold v_slice_forward in E. destruct (ranges (v_shape v) sl) as [rs|] eqn:R; [|discriminate]. injection E as <-. apply ranges_ok in R.
  intros i Hi. cbn [v_slice v_shape] in Hi. pose proof (in_bounds_length _ _ Hi) as Li. rewrite map_length in Li.
  assert (E : map2 (fun (r : nat * nat) k => (fst r + k)%nat) rs i = map2 Nat.add (map fst rs) i).
  { clear. revert i. induction rs as [|r rs IH]; intros [|a i]; simpl; try reflexivity. rewrite IH. reflexivity. }
  assert (Q : in_bounds (v_shape v) (map2 (fun (r : nat * nat) k => (fst r + k)%nat) rs i)).
  { clear - R Hi. revert i Hi. induction R as [|r d rs sh Hr R IH]; intros i Hi; inversion Hi as [|a b i' sh' Ha Hi' E1 E2]; subst; simpl; constructor.
    - unfold range_ok in Hr. lia.
    - apply IH. exact Hi'. }
  apply B in Q. unfold position in *. rewrite E, stride_sum_plus in Q by (rewrite map_length; congruence). cbn [v_slice v_off v_strides v_mem]. lia.
Qed.
Lemma slice_view_ok sl (v w : view R) : view_ok v -> v_slice_forward sl v = Some w -> view_ok w.
Proof.
  intros W E. unfold v_slice_forward in E. destruct (ranges (v_shape v) sl) as [rs|] eqn:R; [|discriminate]. injection E as <-. apply ranges_ok in R.
  unfold view_ok in *. simpl. rewrite map_length, W. symmetry. clear - R. induction R; simpl; congruence.
Qed.

Lemma insert0_rev_bounds k sh j : (k < length sh)%nat -> nth_error sh k = Some 1%nat -> in_bounds (remove_at k sh) j -> in_bounds sh (insert_at k 0%nat j).
Proof.
  intros Hk E Hj. rewrite <- (insert_remove_nth k 0%nat sh Hk). apply nth_error_nth with (d := 0%nat) in E. rewrite E.
  apply in_bounds_insert; [rewrite remove_length by exact Hk; lia|]. split; [lia|exact Hj].
Qed.
Lemma index0_position k (v : view R) j : view_ok v -> nth_error (v_shape v) k = Some 1%nat -> in_bounds (v_shape (v_index0 k v)) j ->
  in_bounds (v_shape v) (insert_at k 0%nat j) /\ position (v_index0 k v) j = position v (insert_at k 0%nat j).
Proof.
  intros W E Hj. cbn [v_index0 v_shape] in Hj. assert (Hk : (k < length (v_shape v))%nat) by (apply nth_error_Some; congruence). split; [apply insert0_rev_bounds; assumption|].
  unfold position. cbn [v_index0 v_strides]. apply stride_sum_insert0.
  - rewrite W. exact Hk.
  - rewrite (in_bounds_length _ _ Hj), remove_length, W by exact Hk. lia.
Qed.
Lemma index0_stored k v q : nth_error (v_shape v) k = Some 1%nat -> stored q (PA v) -> stored q (PA (v_index0 k v)).
Proof.
  intros E (W & B & S). assert (Hk : (k < length (v_shape v))%nat) by (apply nth_error_Some; congruence).
  assert (Ins : insert_at k 1%nat (remove_at k (v_shape v)) = v_shape v).
  { rewrite <- (insert_remove_nth k 0%nat (v_shape v) Hk) at 2. apply nth_error_nth with (d := 0%nat) in E. rewrite E. reflexivity. }
  assert (Lr : length (remove_at k (v_shape v)) = (length (v_shape v) - 1)%nat) by (apply remove_length; exact Hk).
  assert (RM : row_major_view v -> row_major_view (v_index0 k v)).
  { intros R j Hj. destruct (index0_position k v j W E Hj) as [Q ->]. rewrite R by exact Q. cbn [v_index0 v_shape] in *. rewrite <- Ins at 1.
    apply ravel_insert1; [lia|]. apply in_bounds_length. exact Hj. }
  assert (CM : column_major_view v -> column_major_view (v_index0 k v)).
  { intros R j Hj. destruct (index0_position k v j W E Hj) as [Q ->]. rewrite R by exact Q. cbn [v_index0 v_shape] in *. rewrite <- Ins at 1.
    pose proof (in_bounds_length _ _ Hj) as Lj. rewrite !rev_insert by lia. rewrite Lj. apply ravel_insert1; rewrite !rev_length; lia. }
  split; [apply v_index0_ok; exact W|]. split.
  - intros j Hj. destruct (index0_position k v j W E Hj) as [Q ->]. exact (B _ Q).
  - destruct q; [apply RM; exact S|destruct S; [left|right]; auto|trivial].
Qed.
Lemma squeeze_loop_stored q axes : forall adjust v w, stored q (PA v) -> v_squeeze_loop adjust axes v = Some w -> stored q (PA w).
Proof.
  induction axes as [|i axes IH]; intros adjust v w S E; [injection E as <-; exact S|]. cbn [v_squeeze_loop] in E. cbv zeta in E.
  destruct (_ <? 0)%Z; [discriminate|]. match type of E with context [Z.to_nat ?z] => set (k := Z.to_nat z) in E end.
  destruct (nth_error (v_shape v) k) as [[|[|d]]|] eqn:F; try discriminate. eapply IH; [|exact E]. apply index0_stored; assumption.
Qed.

Lemma row_inside (v : view R) : row_major_view v -> inside v <-> (prod (v_shape v) = 0 \/ v_off v + prod (v_shape v) <= length (v_mem v))%nat.
Proof.
  intros R. split.
  - intros B. destruct (Nat.eq_dec (prod (v_shape v)) 0) as [Z|Z]; [left; exact Z|right].
    assert (I : In (prod (v_shape v) - 1)%nat (seq 0 (prod (v_shape v)))) by (apply in_seq; lia). rewrite <- ravel_indices in I. apply in_map_iff in I.
    destruct I as (i & E & Hi). apply indices_in in Hi. pose proof (B i Hi) as Q. rewrite R, E in Q by exact Hi. lia.
  - intros H i Hi. rewrite R by exact Hi. pose proof (ravel_lt _ _ Hi). destruct H; lia.
Qed.
Lemma column_inside (v : view R) : column_major_view v -> inside v <-> (prod (v_shape v) = 0 \/ v_off v + prod (v_shape v) <= length (v_mem v))%nat.
Proof.
  intros R. split.
  - intros B. destruct (Nat.eq_dec (prod (v_shape v)) 0) as [Z|Z]; [left; exact Z|right].
    destruct (column_index (v_shape v) (prod (v_shape v) - 1)) as (i & Hi & E); [lia|]. pose proof (B i Hi) as Q. rewrite R, E in Q by exact Hi. lia.
  - intros H i Hi. rewrite R by exact Hi. pose proof (ravel_lt _ _ (in_bounds_rev _ _ Hi)) as Q. rewrite prod_rev in Q. destruct H; lia.
Qed.
Lemma rows_raw (v : view R) : inside v -> row_major_view v -> a_data (contents 0 v) = raw v.
Proof.
  intros B R. apply row_inside in B; [|exact R]. destruct B as [Z|B]; [|apply raw_data; assumption].
  unfold raw. rewrite Z. simpl. apply length_zero_iff_nil. rewrite map_length, indices_length. exact Z.
Qed.

Lemma into_shape_stored v sh w k : v_into_shape v sh = Some w -> stored k (PA v) -> stored k (PA w).
Proof.
  intros E (W & B & S). unfold v_into_shape in E. destruct (Nat.eqb_spec (prod (v_shape v)) (prod sh)) as [P|P]; [|discriminate].
  destruct (is_standard v) eqn:Sd.
  - injection E as <-. apply is_standard_iff in Sd; [|exact W]. split; [apply std_ok|]. split.
    + apply row_inside; [apply std_rows|]. cbn [v_shape v_off v_mem]. rewrite <- P. apply row_inside; assumption.
    + destruct k; [apply std_rows|left; apply std_rows|trivial].
  - destruct (_ && _) eqn:F; [|discriminate]. apply andb_prop in F. destruct F as [_ F]. apply is_column_iff in F; [|exact W]. injection E as <-. split; [apply fortran_ok|]. split.
    + apply column_inside; [apply fortran_columns|]. cbn [v_shape v_off v_mem]. rewrite <- P. apply column_inside; assumption.
    + destruct k; [|right; apply fortran_columns|trivial]. apply is_standard_iff in S; [congruence|exact W].
Qed.
Lemma deep_copy_stored v : stored Rows (PA (deep_copy 0 v)).
Proof.
  destruct (deep_copy_standard 0 v) as [A B]. split; [exact A|]. split; [|exact B]. apply row_inside; [exact B|]. right. simpl.
  rewrite map_length, indices_length. lia.
Qed.
Lemma reshape_stored l v w : stored Anyhow (PA v) -> v_reshape 0 l v = Some w -> stored Rows (PA w).
Proof.
  intros (W & B & _) E. unfold v_reshape in E. destruct (reshape_dims _ _ _) as [t|]; [|discriminate]. cbn [Arith_Model.bind] in E.
  destruct (is_standard v) eqn:Sd.
  - destruct (v_into_shape v t) as [w'|] eqn:F.
    + injection E as <-. apply (into_shape_stored v t w' Rows F). split; [exact W|]. split; [exact B|apply is_standard_iff; assumption].
    + eapply into_shape_stored; [exact E|apply deep_copy_stored].
  - eapply into_shape_stored; [exact E|apply deep_copy_stored].
Qed.

(** ** One operation *)
Definition satisfies (req : list (nat * order)) (vs : list pv) : Prop :=
  forall p k v, In (p, k) req -> nth_error vs p = Some v -> stored k v.

Section Op.
  Variable place : top -> list pv -> arr R -> view R.
  Hypothesis HP : places place.

  Definition default_compute (o : top) (vs : list pv) : option pv :=
    match tcompute o (map elems vs) with
    | Some (TA a) => Some (PA (place o vs a))
    | Some (TI l) => Some (PI l)
    | None => None
    end.
  Lemma elements_wf sh a : has_shape sh a -> length (a_data a) = prod (a_shape a).
  Proof. intros [E F]. congruence. Qed.
  Lemma default_right o vs t v w : tcompute o (map elems vs) = Some v -> has_ty v t -> Forall (stored w) vs ->
    exists r, default_compute o vs = Some r /\ elems r = v /\ stored (result_order o w) r.
  Proof.
    intros E T S. unfold default_compute. rewrite E. destruct v as [a|l].
    - destruct t as [sh|]; [|destruct T]. destruct (HP o vs a w (elements_wf _ _ T)) as [Q1 Q2]. eexists. split; [reflexivity|]. split; [|apply Q2; exact S].
      simpl. rewrite Q1. reflexivity.
    - eexists. split; [reflexivity|]. split; [reflexivity|exact I].
  Qed.
  Lemma placed_right o vs r v t w : otA r = Some v -> has_ty v t -> Forall (stored w) vs ->
    exists q, placed place o vs r = Some q /\ elems q = v /\ stored (result_order o w) q.
  Proof.
    intros E T S. destruct r as [a|]; [|discriminate]. injection E as <-. destruct t as [sh|]; [|destruct T].
    destruct (HP o vs a w (elements_wf _ _ T)) as [Q1 Q2]. eexists. split; [reflexivity|]. split; [|apply Q2; exact S]. simpl. rewrite Q1. reflexivity.
  Qed.
  Lemma view_right (r : option (view R)) (e : option (arr R)) v : option_map (contents 0) r = e -> otA e = Some v ->
    exists x, r = Some x /\ elems (PA x) = v.
  Proof. intros E F. subst e. destruct r as [x|]; [|discriminate]. injection F as <-. exists x. split; reflexivity. Qed.

  Lemma stored_all w vs p v : Forall (stored w) vs -> nth_error vs p = Some v -> stored w v.
  Proof. intros S E. rewrite Forall_forall in S. apply S. eapply nth_error_In. exact E. Qed.

  Lemma vec_view_contents l : contents 0%Z (vec_view l) = vecZ l.
  Proof.
    enough (E : a_data (contents 0%Z (vec_view l)) = l) by (unfold vecZ; rewrite <- E at 3; reflexivity).
    rewrite (raw_data 0%Z (vec_view l)).
    - unfold raw. simpl. rewrite Nat.mul_1_r. apply firstn_all.
    - simpl. lia.
    - intros i Hi. inversion Hi as [|k n i' s Hk Hn]; subst. inversion Hn; subst. unfold position. simpl. lia.
  Qed.
  Lemma gather_lax lax axis ts t idx x gy : op_tyx lax (TGatherGrad axis) ts = Some t -> Forall2 has_ty [TI idx; TA x; TA gy] ts ->
    exists sh, has_shape sh x /\ has_shape (firstn (Z.to_nat axis) sh ++ [length idx] ++ skipn (S (Z.to_nat axis)) sh) gy.
  Proof.
    intros H HV. destruct lax; [|simpl in H; destruct ts as [|[] [|[] [|[] [|]]]]; discriminate].
    cbn [op_tyx] in H. destruct ts as [|[|idx'] [|[sh|] [|[g|] [|]]]]; try discriminate.
    destruct (gather_ty true axis idx' sh) as [out|] eqn:EG; [|discriminate].
    destruct (gather_back axis idx') eqn:EB; [|discriminate]. destruct (shape_eqb g out) eqn:ES; [|discriminate].
    apply shape_eqb_ok in ES. subst g. inv_tys. destruct (gather_ty_ok _ _ _ _ _ EG) as (k & HA & Hk & _ & _ & ->).
    exists sh. split; [assumption|]. unfold gather_back in EB. apply andb_prop in EB. destruct EB as [Hax _]. apply Z.leb_le in Hax.
    pose proof (axis_of_ok _ _ _ HA) as NA.
    assert (Ek : axis = Z.of_nat k) by (destruct NA as [_ [->|E]]; [reflexivity|lia]). subst axis. rewrite Nat2Z.id, <- set_firstn by exact Hk. injection H3 as ->. assumption.
  Qed.

  Definition right_result o vs w : Prop :=
    exists r, pcompute place o vs = Some r /\ tcompute o (map elems vs) = Some (elems r) /\ stored (result_order o w) r.

  (** If the operands that must be stored by rows are, the operation returns what it returns on arrays, or it panics
      because of an operand stored neither by rows nor by columns. *)
  Lemma op_cases lax o ts t vs w : o <> TLeaf -> op_tyx lax o ts = Some t -> Forall2 has_ty (map elems vs) ts ->
    Forall (stored w) vs -> satisfies (must_be o) vs ->
    right_result o vs w \/ (pcompute place o vs = None /\ ~ satisfies (should_be o) vs).
  Proof.
    intros Ho Ht HV S M1. destruct (op_tyx_sound lax o ts t _ Ht Ho HV) as (v & Ev & Tv).
    assert (D : forall r, pcompute place o vs = Some r -> elems r = v -> stored (result_order o w) r -> right_result o vs w).
    { intros r A B C. exists r. rewrite B. auto. }
    assert (Dd : pcompute place o vs = default_compute o vs -> right_result o vs w).
    { intros Q. destruct (default_right o vs t v w Ev Tv S) as (r & A & B & C). apply (D r); auto. rewrite Q. auto. }
    assert (Dp : forall r, pcompute place o vs = placed place o vs r -> otA r = Some v -> right_result o vs w).
    { intros r Q E. destruct (placed_right o vs r v t w E Tv S) as (q & A & B & C). apply (D q); auto. rewrite Q. auto. }
    assert (W : forall p x, nth_error vs p = Some (PA x) -> view_ok x /\ inside x /\ stored w (PA x)).
    { intros p x E. pose proof (stored_all w vs p (PA x) S E) as Q. split; [apply Q|]. split; [apply Q|exact Q]. }
    destruct o; try (left; apply Dd; reflexivity).
    - (* StopGradient *)
      destruct vs as [|[x|x] [|y vs]]; try (left; apply Dd; reflexivity). left. simpl in Ev. injection Ev as <-. destruct (W 0%nat x eq_refl) as (_ & _ & Q). apply (D (PA x)); auto.
    - (* ReduceGradCommon *)
      destruct vs as [|[g|g] [|[l|l] [|[axes|axes] [|y vs]]]]; try (left; apply Dd; reflexivity).
      simpl in Ev. destruct (dims l) as [sh|] eqn:El; [|discriminate]. destruct (W 0%nat g eq_refl) as (Wg & _ & _).
      assert (OK : v_reduce_grad 0 make_dims false axes sh g = reduce_grad 0 make_dims false axes sh (contents 0 g) -> right_result (TReduceGrad make_dims) [PA g; PI l; PI axes] w).
      { intros Q. apply (Dp (v_reduce_grad 0 make_dims false axes sh g)); [simpl; rewrite El; reflexivity|]. rewrite Q. exact Ev. }
      destruct (row_dec g Wg) as [R|R]; [left; apply OK; apply v_reduce_grad_eq; auto|].
      destruct (column_dec g Wg) as [C|C]; [left; apply OK; apply v_reduce_grad_eq; auto|].
      destruct (shape_eqb (v_shape g) sh) eqn:Es; [left; apply OK; apply v_reduce_grad_other; auto; left; apply shape_eqb_ok; exact Es|].
      destruct make_dims.
      + right. split.
        * simpl. rewrite El. rewrite v_reduce_grad_none; auto. intros Q. rewrite (proj2 (shape_eqb_ok _ _) Q) in Es. discriminate.
        * intros Q. destruct (Q 0%nat RowsOrColumns (PA g) (or_introl eq_refl) eq_refl) as (_ & _ & [Q1|Q1]); auto.
      + left. apply OK. apply v_reduce_grad_other; auto. right. split; [reflexivity|]. destruct (is_scalar_shape (v_shape g)) eqn:Q; [|reflexivity]. exfalso. apply R.
        unfold is_scalar_shape in Q. intros i Hi. unfold position. destruct (v_shape g) as [|[|d] [|e s]] eqn:Eg; try discriminate.
        * inversion Hi; subst. destruct (v_strides g); reflexivity.
        * inversion Hi; subst. lia.
    - (* Reshape *)
      destruct vs as [|[x|x] [|[l|l] [|y vs]]]; try (left; apply Dd; reflexivity). left. simpl in Ev. destruct (W 0%nat x eq_refl) as (Wx & Bx & _).
      destruct (view_right _ _ _ (v_reshape_eq 0 l x Wx) Ev) as (r & E1 & E2). apply (D (PA r)); [simpl; rewrite E1; reflexivity|exact E2|].
      apply (reshape_stored l x r); [|exact E1]. repeat split; auto.
    - (* Transpose *)
      destruct vs as [|[x|x] [|[l|l] [|y vs]]]; try (left; apply Dd; reflexivity). left. simpl in Ev. destruct (W 0%nat x eq_refl) as (Wx & Bx & _).
      destruct (view_right _ _ _ (v_transpose_eq 0 invert l x Wx) Ev) as (r & E1 & E2). apply (D (PA r)); [simpl; rewrite E1; reflexivity|exact E2|].
      split; [eapply v_transpose_ok; eauto|]. split; [eapply transpose_inside; eauto|exact I].
    - (* IndexOp *)
      destruct vs as [|[x|x] [|y vs]]; try (left; apply Dd; reflexivity). left. simpl in Ev. destruct (W 0%nat x eq_refl) as (Wx & Bx & _).
      destruct (M1 0%nat Rows (PA x) (or_introl eq_refl) eq_refl) as (_ & _ & R). apply (Dp (v_access_elem 0 i x)); [reflexivity|]. rewrite v_access_row by assumption. exact Ev.
    - (* ExpandDims *)
      destruct vs as [|[x|x] [|[l|l] [|y vs]]]; try (left; apply Dd; reflexivity). simpl in Ev. destruct (W 0%nat x eq_refl) as (Wx & Bx & Sx).
      assert (OK : row_major_view x \/ column_major_view x -> right_result TExpandDims [PA x; PI l] w).
      { intros Q. destruct (view_right _ _ _ (v_expand_eq 0 l x Wx Q) Ev) as (r & E1 & E2). apply (D (PA r)); [simpl; rewrite E1; reflexivity|exact E2|].
        unfold v_expand in E1. destruct (expand_shape _ _ _) as [out|]; [|discriminate]. exact (into_shape_stored x out r w E1 Sx). }
      destruct (row_dec x Wx) as [R|R]; [left; auto|]. destruct (column_dec x Wx) as [C|C]; [left; auto|]. right. split.
      + simpl. rewrite (v_expand_none l x Wx R C). reflexivity.
      + intros Q. destruct (Q 0%nat RowsOrColumns (PA x) (or_introl eq_refl) eq_refl) as (_ & _ & [Q1|Q1]); auto.
    - (* Squeeze *)
      destruct vs as [|[x|x] [|[l|l] [|y vs]]]; try (left; apply Dd; reflexivity). left. simpl in Ev. destruct (W 0%nat x eq_refl) as (Wx & Bx & Sx).
      destruct (view_right _ _ _ (v_squeeze_eq 0 l x Wx) Ev) as (r & E1 & E2). apply (D (PA r)); [simpl; rewrite E1; reflexivity|exact E2|].
      exact (squeeze_loop_stored w _ _ _ _ Sx E1).
    - (* Slice *)
      destruct vs as [|[x|x] [|y vs]]; try (left; apply Dd; reflexivity). left. simpl in Ev. destruct (W 0%nat x eq_refl) as (Wx & Bx & Sx).
      destruct (view_right _ _ _ (v_slice_forward_eq 0 sl x) Ev) as (r & E1 & E2). apply (D (PA r)); [simpl; rewrite E1; reflexivity|exact E2|].
      split; [eapply slice_view_ok; eauto|]. split; [eapply slice_inside; eauto|exact I].
    - (* Split *)
      destruct vs as [|[x|x] [|y vs]]; try (left; apply Dd; reflexivity). left. simpl in Ev. destruct (W 0%nat x eq_refl) as (Wx & Bx & Sx).
      destruct (view_right _ _ _ (v_split_forward_eq 0 axis lo hi x) Ev) as (r & E1 & E2). apply (D (PA r)); [simpl; rewrite E1; reflexivity|exact E2|].
      unfold v_split_forward in E1. destruct (normalize_axis axis _) as [k|]; [|discriminate]. cbn [Arith_Model.bind] in E1. destruct (split_slices _ _ _ _) as [sl|]; [|discriminate]. cbn [Arith_Model.bind] in E1.
      split; [eapply slice_view_ok; eauto|]. split; [eapply slice_inside; eauto|exact I].
    - (* GatherGrad *)
      destruct vs as [|[idx|idx] [|[x|x] [|[gy|gy] [|y vs]]]]; try (left; apply Dd; reflexivity). simpl in Ev. destruct (W 2%nat gy eq_refl) as (Wg & Bg & Sg).
      assert (EI : contents 0%Z (vec_view idx) = vecZ idx) by apply vec_view_contents.
      assert (OK : v_gather_grad 0 Rplus axis (vec_view idx) (v_shape x) gy = gather_grad 0 Rplus axis (vecZ idx) (contents 0 x) (contents 0 gy) -> right_result (TGatherGrad axis) [PI idx; PA x; PA gy] w).
      { intros Q. apply (Dp (v_gather_grad 0 Rplus axis (vec_view idx) (v_shape x) gy)); [reflexivity|]. rewrite Q. exact Ev. }
      destruct (row_dec gy Wg) as [R|R]; [left; apply OK; rewrite <- EI; apply (v_gather_grad_row 0 Rplus axis (vec_view idx) (contents 0 x)); assumption|].
      destruct (column_dec gy Wg) as [C|C].
      + left. apply OK. rewrite <- EI. apply (v_gather_grad_flat 0 Rplus axis (vec_view idx) (contents 0 x)); auto.
        destruct (gather_lax lax axis ts t _ _ _ Ht HV) as (sh & Hx & Hg). rewrite (hs_sh _ _ Hx). exact (hs_sh _ _ Hg).
      + right. split; [simpl; rewrite (v_gather_grad_none 0 Rplus axis (vec_view idx) (v_shape x) gy Wg R C); reflexivity|].
        intros Q. destruct (Q 2%nat RowsOrColumns (PA gy) (or_introl eq_refl) eq_refl) as (_ & _ & [Q1|Q1]); auto.
    - (* Conv2DTransposeFilterGrad *)
      destruct vs as [|[gy|gy] [|[x|x] [|[k|k] [|y vs]]]]; try (left; apply Dd; reflexivity). left.
      destruct (M1 0%nat Rows (PA gy) (or_introl eq_refl) eq_refl) as (_ & Bg & Rg). destruct (M1 1%nat Rows (PA x) (or_intror (or_introl eq_refl)) eq_refl) as (_ & Bx & Rx).
      apply (Dp (Conv_Model.kok (v_conv2d_transpose_filter_grad 0 Rplus Rmult blank p s d gy x (contents 0 k)))); [reflexivity|].
      simpl in Ev. unfold kA in Ev. unfold v_conv2d_transpose_filter_grad. rewrite <- (rows_raw gy Bg Rg), <- (rows_raw x Bx Rx). exact Ev.
  Qed.
End Op.
