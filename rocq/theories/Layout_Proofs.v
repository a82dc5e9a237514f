(** Memory layouts: lemmas for C76. *)
From Coq Require Import List Arith ZArith Bool Lia Permutation.
Import ListNotations.
From Verif Require Import Array_Model Array_Proofs Arith_Model Reduce_Model Argx_Model Shape_Model Shape_Proofs Shape_Proofs3 Batch_Model Batch_Proofs Arith_Proofs Layout_Model Layout_Spec.

(** ** Row-major strides *)
Lemma prod_rev l : prod (rev l) = prod l.
Proof. induction l as [|x l IH]; simpl; [reflexivity|]. rewrite prod_app, IH. simpl. lia. Qed.
Lemma in_bounds_rev sh i : in_bounds sh i -> in_bounds (rev sh) (rev i).
Proof. intros H. induction H as [|a d i sh Ha H IH]; simpl; [constructor|]. apply Forall2_app; [exact IH|]. constructor; [exact Ha|constructor]. Qed.
Lemma existsb_zero sh : existsb (fun d => d =? 0) sh = true <-> prod sh = 0.
Proof.
  induction sh as [|d sh IH]; simpl; [split; discriminate|]. destruct (Nat.eqb_spec d 0); simpl.
  - subst. split; reflexivity.
  - rewrite IH. nia.
Qed.
Lemma no_index sh i : prod sh = 0 -> ~ in_bounds sh i.
Proof. intros P H. apply ravel_lt in H. lia. Qed.

Lemma layout_rev_snoc l d s : forall c, layout_rev (l ++ [(d, s)]) c = layout_rev l c && ((d =? 1) || (s =? c * prod (map fst l))).
Proof.
  induction l as [|[e t] l IH]; intros c; simpl.
  - rewrite Nat.mul_1_r, !andb_true_r. destruct (d =? 1); reflexivity.
  - rewrite !IH. destruct (Nat.eqb_spec e 1); simpl.
    + subst. f_equal. f_equal. f_equal. lia.
    + rewrite andb_assoc. f_equal. f_equal. f_equal. lia.
Qed.
Lemma combine_fst {X Y} (a : list X) : forall b : list Y, length b = length a -> map fst (combine a b) = a.
Proof. induction a as [|x a IH]; intros [|y b] H; simpl in *; try discriminate; [reflexivity|]. f_equal. apply IH. congruence. Qed.
Lemma layout_rev_cons d s sh st : length st = length sh ->
  layout_rev (rev (combine (d :: sh) (s :: st))) 1 = layout_rev (rev (combine sh st)) 1 && ((d =? 1) || (s =? prod sh)).
Proof.
  intros L. simpl combine. simpl rev. rewrite layout_rev_snoc. f_equal. f_equal. rewrite map_rev, combine_fst by exact L. rewrite prod_rev. f_equal. lia.
Qed.
(** Zero is an index of every array that has one. *)
Lemma zero_in_bounds sh : prod sh <> 0 -> in_bounds sh (repeat 0 (length sh)).
Proof. induction sh as [|d sh IH]; simpl; intros P; [constructor|]. constructor; [nia|]. apply IH. nia. Qed.
Lemma stride_sum_zero n : forall st, stride_sum st (repeat 0 n) = 0.
Proof. induction n as [|n IH]; intros [|s st]; simpl; auto. rewrite IH. lia. Qed.
Lemma ravel_zero n : forall sh, ravel sh (repeat 0 n) = 0.
Proof. induction n as [|n IH]; intros [|s st]; simpl; auto. Qed.

Lemma layout_strides sh : forall st, length st = length sh -> prod sh <> 0 ->
  layout_rev (rev (combine sh st)) 1 = true <-> forall i, in_bounds sh i -> stride_sum st i = ravel sh i.
Proof.
  induction sh as [|d sh IH]; intros [|s st] L P; try discriminate.
  - simpl. split; [intros _ i H; inversion H; reflexivity|reflexivity].
  - simpl in L. injection L as L. simpl in P. assert (P' : prod sh <> 0) by nia.
    rewrite layout_rev_cons by exact L. rewrite andb_true_iff, IH by assumption. split.
    + intros [H1 H2] i Hi. inversion Hi as [|a d' i' sh' Ha Hi' E1 E2]; subst. simpl. rewrite H1 by exact Hi'.
      apply orb_true_iff in H2. destruct H2 as [H2|H2]; apply Nat.eqb_eq in H2; subst.
      * assert (a = 0) by lia. subst. lia.
      * lia.
    + intros H. split.
      * intros i Hi. specialize (H (0 :: i)). simpl in H. rewrite Nat.mul_0_r in H. apply H. constructor; [nia|exact Hi].
      * destruct (Nat.eqb_spec d 1); [reflexivity|]. simpl. apply Nat.eqb_eq. specialize (H (1 :: repeat 0 (length sh))). simpl in H.
        rewrite stride_sum_zero, ravel_zero in H. assert (E : s * 1 + 0 = prod sh + 0 + 0) by (apply H; constructor; [nia|apply zero_in_bounds; exact P']). lia.
Qed.
Lemma stride_sum_app a b : forall i j, length i = length a -> stride_sum (a ++ b) (i ++ j) = stride_sum a i + stride_sum b j.
Proof. induction a as [|x a IH]; intros [|y i] j H; simpl in *; try discriminate; [reflexivity|]. rewrite IH by congruence. lia. Qed.
Lemma stride_sum_rev st : forall i, length i = length st -> stride_sum (rev st) (rev i) = stride_sum st i.
Proof.
  induction st as [|s st IH]; intros [|k i] H; simpl in *; try discriminate; [reflexivity|].
  rewrite stride_sum_app by (rewrite !rev_length; congruence). rewrite IH by congruence. simpl. lia.
Qed.

Section L.
Context {A : Type} (zero : A).
Implicit Types v w : view A.

Lemma is_standard_iff v : view_ok v -> (is_standard v = true <-> row_major_view v).
Proof.
  intros W. unfold is_standard, layout_c, row_major_view, position. rewrite orb_true_iff, existsb_zero.
  destruct (Nat.eq_dec (prod (v_shape v)) 0) as [P|P].
  - split; [intros _ i H; exfalso; exact (no_index _ _ P H)|auto].
  - rewrite layout_strides by assumption. split; [intros [H|H]; [contradiction|exact H]|auto].
Qed.
Lemma is_column_iff v : view_ok v -> (layout_c (rev (v_shape v)) (rev (v_strides v)) = true <-> column_major_view v).
Proof.
  intros W. unfold layout_c, column_major_view, position. rewrite orb_true_iff, existsb_zero, prod_rev.
  destruct (Nat.eq_dec (prod (v_shape v)) 0) as [P|P].
  - split; [intros _ i H; exfalso; exact (no_index _ _ P H)|auto].
  - rewrite layout_strides; [|rewrite !rev_length; exact W|rewrite prod_rev; exact P]. split.
    + intros [H|H]; [contradiction|]. intros i Hi. rewrite <- (H (rev i)) by (apply in_bounds_rev; exact Hi).
      symmetry. apply stride_sum_rev. rewrite W. apply in_bounds_length. exact Hi.
    + intros H. right. intros i Hi. specialize (H (rev i)). rewrite rev_involutive in H. rewrite <- H.
      * rewrite <- (stride_sum_rev (v_strides v)).
        -- rewrite rev_involutive. reflexivity.
        -- rewrite rev_length. apply in_bounds_length in Hi. rewrite rev_length in Hi. congruence.
      * apply in_bounds_rev in Hi. rewrite rev_involutive in Hi. exact Hi.
Qed.

(** ** The elements of a view *)
Lemma contents_wf v : wf (contents zero v).
Proof. apply tab_wf. Qed.
Lemma contents_ext v w : v_shape v = v_shape w -> (forall i, in_bounds (v_shape v) i -> vget zero v i = vget zero w i) -> contents zero v = contents zero w.
Proof. intros E H. unfold contents. rewrite <- E. apply tab_ext. exact H. Qed.
Lemma std_stride_sum sh i : in_bounds sh i -> stride_sum (std_strides sh) i = ravel sh i.
Proof.
  intros H. rewrite std_row_major by (intros P; exact (no_index _ _ P H)). apply row_major_ravel.
Qed.
Lemma fortran_stride_sum sh i : in_bounds sh i -> stride_sum (fortran_strides sh) i = ravel (rev sh) (rev i).
Proof.
  intros H. unfold fortran_strides. destruct (Nat.eqb_spec (prod sh) 0) as [P|P]; [exfalso; exact (no_index _ _ P H)|].
  rewrite <- (row_major_ravel (rev sh)). rewrite <- (rev_involutive i) at 1. apply stride_sum_rev. rewrite row_major_length, !rev_length. apply in_bounds_length. exact H.
Qed.
Lemma row_major_data v : row_major_view v -> a_data (contents zero v) = map (fun k => nth (v_off v + k) (v_mem v) zero) (seq 0 (prod (v_shape v))).
Proof.
  intros H. simpl. rewrite <- ravel_indices, map_map. apply map_ext_in. intros i Hi. apply indices_in in Hi. unfold vget. rewrite <- H by exact Hi. reflexivity.
Qed.
Lemma std_data mem off sh : a_data (contents zero (View mem off sh (std_strides sh))) = map (fun k => nth (off + k) mem zero) (seq 0 (prod sh)).
Proof. apply (row_major_data (View mem off sh (std_strides sh))). intros i Hi. apply std_stride_sum. exact Hi. Qed.
(** Column-major: the positions in the order of the indices. *)
Definition columns (sh : list nat) : list nat := map (fun i => ravel (rev sh) (rev i)) (indices sh).
Lemma column_major_data v : column_major_view v -> a_data (contents zero v) = map (fun k => nth (v_off v + k) (v_mem v) zero) (columns (v_shape v)).
Proof.
  intros H. unfold columns. rewrite map_map. simpl. apply map_ext_in. intros i Hi. apply indices_in in Hi. unfold vget. rewrite <- H by exact Hi. reflexivity.
Qed.
Lemma fortran_data mem off sh : a_data (contents zero (View mem off sh (fortran_strides sh))) = map (fun k => nth (off + k) mem zero) (columns sh).
Proof. apply (column_major_data (View mem off sh (fortran_strides sh))). intros i Hi. apply fortran_stride_sum. exact Hi. Qed.
Lemma raw_data v : v_off v + prod (v_shape v) <= length (v_mem v) -> row_major_view v -> a_data (contents zero v) = raw v.
Proof.
  intros B H. rewrite row_major_data by exact H. unfold raw. revert B. generalize (prod (v_shape v)) as n, (v_mem v) as m, (v_off v) as o. clear.
  intros n m o B. apply (nth_ext _ _ zero zero).
  - rewrite map_length, seq_length, firstn_length, skipn_length. lia.
  - intros k Hk. rewrite map_length, seq_length in Hk. rewrite nth_map_seq by exact Hk. simpl.
    replace (nth (o + k) m zero) with (nth (o + k) (firstn o m ++ skipn o m) zero) by (rewrite firstn_skipn; reflexivity).
    rewrite app_nth2 by (rewrite firstn_length; lia). rewrite firstn_length. replace (o + k - Nat.min o (length m)) with k by lia.
    assert (L : n <= length (skipn o m)) by (rewrite skipn_length; lia). generalize dependent (skipn o m). intros l L.
    rewrite <- (firstn_skipn n l) at 1. apply app_nth1. rewrite firstn_length. lia.
Qed.

(** ** into_shape *)
Lemma v_into_shape_row v sh w : view_ok v -> row_major_view v -> v_into_shape v sh = Some w ->
  into_shape (contents zero v) sh = Some (contents zero w).
Proof.
  intros W H E. unfold v_into_shape in E. destruct (Nat.eqb_spec (prod (v_shape v)) (prod sh)) as [P|P]; [|discriminate].
  rewrite (proj2 (is_standard_iff v W) H) in E. injection E as <-. unfold into_shape. cbn [contents tab a_shape]. rewrite (proj2 (Nat.eqb_eq _ _) P).
  f_equal. unfold contents at 2. cbn [v_shape tab]. unfold tab. f_equal. rewrite row_major_data by exact H.
  change (map (vget zero {| v_mem := v_mem v; v_off := v_off v; v_shape := sh; v_strides := std_strides sh |}) (indices sh))
    with (a_data (contents zero {| v_mem := v_mem v; v_off := v_off v; v_shape := sh; v_strides := std_strides sh |})).
  rewrite std_data, P. reflexivity.
Qed.
Lemma v_into_shape_row_none v sh : view_ok v -> row_major_view v -> v_into_shape v sh = None ->
  into_shape (contents zero v) sh = None.
Proof.
  intros W H E. unfold v_into_shape in E. unfold into_shape. cbn [contents tab a_shape]. destruct (prod (v_shape v) =? prod sh); [|reflexivity].
  rewrite (proj2 (is_standard_iff v W) H) in E. discriminate.
Qed.
(** On a row-major view it is the operation on arrays. *)
Lemma v_into_shape_row_eq v sh : view_ok v -> row_major_view v -> option_map (contents zero) (v_into_shape v sh) = into_shape (contents zero v) sh.
Proof.
  intros W H. destruct (v_into_shape v sh) as [w|] eqn:E; simpl; symmetry.
  - apply v_into_shape_row; assumption.
  - apply v_into_shape_row_none; assumption.
Qed.
(** On a column-major view that is not row-major, the positions are those of the new shape counted by columns. *)
Lemma column_rank v : view_ok v -> ~ row_major_view v -> column_major_view v -> 1 < length (v_shape v).
Proof.
  intros W N C. destruct (v_shape v) as [|d [|e sh]] eqn:E; [| |simpl; lia]; exfalso; apply N; intros i Hi; rewrite C by exact Hi; rewrite E in *; apply in_bounds_length in Hi.
  - destruct i; [reflexivity|discriminate].
  - destruct i as [|k [|]]; try discriminate. reflexivity.
Qed.
Lemma v_into_shape_column v sh : view_ok v -> ~ row_major_view v -> column_major_view v -> prod (v_shape v) = prod sh ->
  v_into_shape v sh = Some (View (v_mem v) (v_off v) sh (fortran_strides sh)).
Proof.
  intros W N C P. unfold v_into_shape. rewrite (proj2 (Nat.eqb_eq _ _) P).
  destruct (is_standard v) eqn:S; [exfalso; apply N; apply is_standard_iff; assumption|].
  rewrite (proj2 (Nat.ltb_lt _ _) (column_rank v W N C)), (proj2 (is_column_iff v W) C). reflexivity.
Qed.
Lemma v_into_shape_other v sh : view_ok v -> ~ row_major_view v -> ~ column_major_view v -> v_into_shape v sh = None.
Proof.
  intros W N C. unfold v_into_shape. destruct (prod (v_shape v) =? prod sh); [|reflexivity].
  destruct (is_standard v) eqn:S; [exfalso; apply N; apply is_standard_iff; assumption|].
  destruct (layout_c (rev (v_shape v)) (rev (v_strides v))) eqn:L; [exfalso; apply C; apply is_column_iff; assumption|]. rewrite andb_false_r. reflexivity.
Qed.
Lemma row_dec v : view_ok v -> {row_major_view v} + {~ row_major_view v}.
Proof. intros W. destruct (is_standard v) eqn:E; [left; apply is_standard_iff; assumption|right; intros H; apply is_standard_iff in H; congruence]. Qed.
Lemma column_dec v : view_ok v -> {column_major_view v} + {~ column_major_view v}.
Proof. intros W. destruct (layout_c (rev (v_shape v)) (rev (v_strides v))) eqn:E; [left; apply is_column_iff; assumption|right; intros H; apply is_column_iff in H; congruence]. Qed.

(** ** Inserting axes of length 1 *)
Lemma indices_insert1 k : forall sh, k <= length sh -> indices (insert_at k 1 sh) = map (insert_at k 0) (indices sh).
Proof.
  induction k as [|k IH]; intros sh H.
  - simpl. rewrite app_nil_r. reflexivity.
  - destruct sh as [|d sh]; simpl in H; [lia|]. simpl. rewrite IH by lia. rewrite !flat_map_concat_map, concat_map, map_map. f_equal. apply map_ext. intros i. rewrite !map_map. reflexivity.
Qed.
Lemma rev_insert {X} (x : X) k : forall l, k <= length l -> rev (insert_at k x l) = insert_at (length l - k) x (rev l).
Proof.
  assert (Happ : forall (x : X) a b, insert_at (length a) x (a ++ b) = a ++ x :: b).
  { clear. intros x a b. induction a as [|y a IH]; simpl; [destruct b; reflexivity|]. rewrite IH. reflexivity. }
  intros l H. rewrite <- (firstn_skipn k l) at 1 3.
  replace k with (length (firstn k l)) at 1 by (rewrite firstn_length; lia). rewrite Happ, !rev_app_distr. simpl. rewrite <- app_assoc.
  replace (length l - k) with (length (rev (skipn k l))) by (rewrite rev_length, skipn_length; reflexivity). rewrite Happ. reflexivity.
Qed.
Lemma columns_insert1 k sh : k <= length sh -> columns (insert_at k 1 sh) = columns sh.
Proof.
  intros H. unfold columns. rewrite indices_insert1 by exact H. rewrite map_map. apply map_ext_in. intros i Hi. apply indices_in, in_bounds_length in Hi.
  rewrite !rev_insert by lia. rewrite Hi. apply ravel_insert1; rewrite !rev_length; lia.
Qed.
End L.
