From Coq Require Import List Arith ZArith Bool Lia Reals Lra RealField Permutation.
Import ListNotations.
From Verif Require Import Eval_Proofs Array_Model Array_Proofs Array_Sum Arith_Model Arith_Proofs Broadcast_Spec Vjp_Spec Vjp_Proofs Arith_Final Reduce_Model Reduce_Spec Reduce_Proofs Shape_Spec Dot_Model Dot_Spec Dot_Proofs Softmax_Model Softmax_Spec.
Local Open Scope R_scope.

(** ** Lines along an axis *)
Lemma at_pos_set k l i : at_pos k l i = set_at k l i.
Proof. revert i. induction k as [|k IH]; intros [|a i]; simpl; try reflexivity. rewrite IH. reflexivity. Qed.
Lemma set_set {X} k (a b : X) l : set_at k a (set_at k b l) = set_at k a l.
Proof. revert l. induction k as [|k IH]; intros [|x l]; simpl; try reflexivity. rewrite IH. reflexivity. Qed.
Lemma set_nth_self k (l : list nat) : set_at k (nth k l 0%nat) l = l.
Proof. revert l. induction k as [|k IH]; intros [|x l]; simpl; try reflexivity. rewrite IH. reflexivity. Qed.
Lemma set_in k sh i l : in_bounds sh i -> (l < nth k sh 0)%nat -> in_bounds sh (set_at k l i).
Proof. intros H L. rewrite <- (set_nth_self k sh). apply in_bounds_set; assumption. Qed.
Lemma line_swap k : forall sh (f : list nat -> list nat -> R), (k < length sh)%nat ->
  rsum (indices sh) (fun i => rsum (seq 0 (nth k sh 0%nat)) (fun l => f i (set_at k l i))) =
  rsum (indices sh) (fun i => rsum (seq 0 (nth k sh 0%nat)) (fun l => f (set_at k l i) i)).
Proof.
  induction k as [|k IH]; intros [|d sh] f H; simpl in H; try lia.
  - simpl nth. simpl indices. rewrite !(sum_flat_map 0 1 Rplus Rmult Rminus Ropp RT).
    transitivity (rsum (indices sh) (fun j => rsum (seq 0 d) (fun a => rsum (seq 0 d) (fun l => f (a :: j) (l :: j))))).
    + rewrite (sum_swap 0 1 Rplus Rmult Rminus Ropp RT). apply sum_ext. intros a _. rewrite sum_map. reflexivity.
    + symmetry. etransitivity.
      { apply sum_ext. intros a _. rewrite sum_map. reflexivity. }
      rewrite (sum_swap 0 1 Rplus Rmult Rminus Ropp RT). apply sum_ext. intros j _. simpl.
      apply (sum_swap 0 1 Rplus Rmult Rminus Ropp RT).
  - simpl nth. simpl indices. rewrite !(sum_flat_map 0 1 Rplus Rmult Rminus Ropp RT). apply sum_ext. intros a _. rewrite !sum_map. simpl.
    apply (IH sh (fun i j => f (a :: i) (a :: j))). lia.
Qed.

Lemma co_dims_set k : forall sh, co_dims sh (set_at k 1%nat sh) = Some sh.
Proof.
  induction k as [|k IH]; intros [|d sh]; simpl; try reflexivity.
  - rewrite co_dims_self. destruct (Nat.eqb_spec d 1); [reflexivity|]. reflexivity.
  - rewrite IH, Nat.eqb_refl. reflexivity.
Qed.
Lemma co_broadcast_set k sh : co_broadcast sh (set_at k 1%nat sh) = Some sh.
Proof. unfold co_broadcast. rewrite set_length, Nat.sub_diag. simpl. rewrite co_dims_set. reflexivity. Qed.
Lemma can_broadcast_set k sh : can_broadcast (set_at k 1%nat sh) sh = true.
Proof. apply (co_broadcast_ok_r _ _ _ (co_broadcast_set k sh)). Qed.
Lemma bc_idx_set k sh i : in_bounds sh i -> bc_idx (set_at k 1%nat sh) i = set_at k 0%nat i.
Proof.
  intros H. replace (set_at k 1%nat sh) with (fill_axes 1 [k] sh) by (rewrite fill_set; apply fill_nil).
  rewrite bc_idx_fill by exact H. rewrite fill_set. apply fill_nil.
Qed.

(** ** Folding one axis *)
Lemma fold_to_set {B} d (x : arr R) k (init : B) f : (k < length (a_shape x))%nat ->
  exists b, fold_to d x k init f (set_at k 1%nat (a_shape x)) = Some b /\ a_shape b = set_at k 1%nat (a_shape x) /\ wf b /\
    forall i e, in_bounds (a_shape x) i ->
      aget e b (set_at k 0%nat i) = fold_left f (map (fun l => aget d x (set_at k l i)) (seq 0 (nth k (a_shape x) 0%nat))) init.
Proof.
  intros Hk. unfold fold_to, fold_axis. rewrite (nth_error_nth' (a_shape x) 0%nat Hk). unfold bind.
  assert (P : prod (remove_at k (a_shape x)) = prod (set_at k 1%nat (a_shape x))) by (rewrite <- remove_insert_set, prod_insert by exact Hk; lia).
  rewrite into_shape_get by (simpl; exact P). eexists. split; [reflexivity|]. split; [reflexivity|].
  split; [unfold wf; cbn [a_data a_shape]; unfold tab; cbn [a_data]; rewrite map_length, indices_length; exact P|].
  intros i e Hi. pose proof (in_bounds_length _ _ Hi) as Li. unfold aget at 1. cbn [a_data a_shape].
  rewrite <- !remove_insert_set by lia.
  assert (Lr : length (remove_at k i) = length (remove_at k (a_shape x))) by (rewrite !remove_length by lia; lia).
  rewrite ravel_insert1; [|rewrite remove_length by exact Hk; lia|exact Lr].
  assert (R : in_bounds (remove_at k (a_shape x)) (remove_at k i)) by (apply in_bounds_remove; exact Hi).
  pose proof (aget_tab e (remove_at k (a_shape x)) (fun j => fold_left f (map (fun i0 => aget d x (insert_at k i0 j)) (seq 0 (nth k (a_shape x) 0%nat))) init) _ R) as Q.
  unfold aget in Q at 1. cbn [a_shape tab] in Q. unfold tab in *. cbn [a_data a_shape] in *. rewrite Q. f_equal. apply map_ext. intros l.
  rewrite remove_insert_set by lia. reflexivity.
Qed.
Lemma fold_to_remove {B} d (x : arr R) k (init : B) f : (k < length (a_shape x))%nat ->
  exists b, fold_to d x k init f (remove_at k (a_shape x)) = Some b /\ a_shape b = remove_at k (a_shape x) /\ wf b /\
    forall i e, in_bounds (a_shape x) i ->
      aget e b (remove_at k i) = fold_left f (map (fun l => aget d x (set_at k l i)) (seq 0 (nth k (a_shape x) 0%nat))) init.
Proof.
  intros Hk. unfold fold_to, fold_axis. rewrite (nth_error_nth' (a_shape x) 0%nat Hk). unfold bind.
  rewrite into_shape_get by reflexivity. eexists. split; [reflexivity|]. split; [reflexivity|].
  split; [unfold wf; cbn [a_data a_shape]; unfold tab; cbn [a_data]; rewrite map_length, indices_length; reflexivity|].
  intros i e Hi. pose proof (in_bounds_length _ _ Hi) as Li.
  assert (R : in_bounds (remove_at k (a_shape x)) (remove_at k i)) by (apply in_bounds_remove; exact Hi).
  change (Arr (remove_at k (a_shape x)) (a_data (tab (remove_at k (a_shape x)) (fun j => fold_left f (map (fun i0 => aget d x (insert_at k i0 j)) (seq 0 (nth k (a_shape x) 0%nat))) init))))
    with (tab (remove_at k (a_shape x)) (fun j => fold_left f (map (fun i0 => aget d x (insert_at k i0 j)) (seq 0 (nth k (a_shape x) 0%nat))) init)).
  rewrite aget_tab by exact R. f_equal. apply map_ext. intros l. rewrite remove_insert_set by lia. reflexivity.
Qed.
Lemma fold_plus {I} (l : list I) g : fold_left Rplus (map g l) 0 = rsum l g.
Proof. rewrite (sum_list 0 1 Rplus Rmult Rminus Ropp RT), sum_map, Rplus_0_l. reflexivity. Qed.

(** ** Axes *)
Lemma axis_of_names n z k : names_axis n z k -> axis_of n z = Some k.
Proof.
  intros [Hk Hz]. unfold axis_of.
  assert (E : (if (z <? 0)%Z then (Z.of_nat n + z)%Z else z) = Z.of_nat k) by (destruct (Z.ltb_spec z 0); lia).
  rewrite E. destruct (Z.ltb_spec (Z.of_nat k) 0); [lia|]. rewrite Nat2Z.id. destruct (Nat.ltb_spec k n); [reflexivity|lia].
Qed.

(** ** vjp by coordinates *)
Lemma vjp_coords F x gy gx (Y : arr R -> arr R) (D : list nat -> arr R -> R) :
  wf x -> wf gy -> has_shape (a_shape x) gx ->
  (forall x', has_shape (a_shape x) x' -> F x' = Some (Y x') /\ has_shape (a_shape gy) (Y x')) ->
  (forall v i, has_shape (a_shape x) v -> in_bounds (a_shape gy) i -> derivable_pt_lim (fun t => rget (Y (step x v t)) i) 0 (D i v)) ->
  (forall v, has_shape (a_shape x) v -> rsum (indices (a_shape gy)) (fun i => rget gy i * D i v) = rsum (indices (a_shape x)) (fun i => rget gx i * rget v i)) ->
  vjp F x gy gx.
Proof.
  intros Wx Wg Hgx HF HD HS. split; [exact Hgx|]. intros v Hv.
  assert (Hx : has_shape (a_shape x) x) by (apply has_shape_wf; auto).
  assert (Hg : has_shape (a_shape gy) gy) by (apply has_shape_wf; auto).
  exists (fun t => Y (step x v t)). split; [intros t; apply HF; apply (step_has_shape (a_shape x)); auto|].
  rewrite (dot_sum (a_shape x)) by auto. rewrite <- HS by exact Hv.
  apply (derivable_ext (fun t => rsum (indices (a_shape gy)) (fun i => rget gy i * rget (Y (step x v t)) i))).
  - intros t. symmetry. apply dot_sum; [exact Hg|]. apply HF. apply (step_has_shape (a_shape x)); auto.
  - apply derivable_sum. intros i Hi. apply indices_in in Hi. apply (derivable_pt_lim_scal (fun t => rget (Y (step x v t)) i)). apply HD; assumption.
Qed.

(** ** softmax *)
Lemma exp_sum_pos {I} (l : list I) f : l <> [] -> 0 < rsum l (fun i => exp (f i)).
Proof.
  destruct l as [|a l]; [congruence|]. intros _. simpl.
  enough (0 <= rsum l (fun i => exp (f i))) by (pose proof (exp_pos (f a)); lra).
  induction l as [|b l IH]; simpl; [lra|]. pose proof (exp_pos (f b)). lra.
Qed.
Lemma seq_ne n : (0 < n)%nat -> seq 0 n <> [].
Proof. destruct n; [lia|discriminate]. Qed.
Lemma line_sum_rsum k x f i : line_sum k x f i = rsum (seq 0 (nth k (a_shape x) 0%nat)) (fun l => f (rget x (set_at k l i))).
Proof. unfold line_sum. rewrite sum_below_rsum. apply sum_ext. intros l _. rewrite at_pos_set. reflexivity. Qed.
Lemma dim_pos k sh i : in_bounds sh i -> (k < length sh)%nat -> (0 < nth k sh 0)%nat.
Proof. intros H Hk. pose proof (in_bounds_nth _ _ k H Hk). lia. Qed.
Lemma line_pos k x i : in_bounds (a_shape x) i -> (k < length (a_shape x))%nat -> 0 < line_sum k x exp i.
Proof. intros Hi Hk. rewrite line_sum_rsum. apply exp_sum_pos. apply seq_ne. apply (dim_pos k _ i); assumption. Qed.
Lemma line_sum_same k x f i l : line_sum k x f (set_at k l i) = line_sum k x f i.
Proof. rewrite !line_sum_rsum. apply sum_ext. intros m _. rewrite set_set. reflexivity. Qed.

Definition smax (k : nat) (x : arr R) : arr R := tab (a_shape x) (fun i => exp (rget x i) / line_sum k x exp i).
Lemma smax_of k x : softmax_of k x (smax k x).
Proof.
  split; [reflexivity|]. split; [apply (proj2 (tab_has_shape (a_shape x) _))|]. intros i Hi. unfold smax. rewrite aget_tab by exact Hi. reflexivity.
Qed.
(** The maximum of the line through [i], at least [m]. *)
Definition line_max (m : R) (k : nat) (x : arr R) (i : list nat) : R :=
  fold_left Rmax (map (fun l => rget x (set_at k l i)) (seq 0 (nth k (a_shape x) 0%nat))) m.
Lemma fold_max_ge l : forall m a, In a l \/ a <= m -> a <= fold_left Rmax l m.
Proof.
  induction l as [|b l IH]; intros m a H; simpl.
  - destruct H as [[]|H]; exact H.
  - apply IH. destruct H as [[<-|H]|H]; auto; right; [apply Rmax_r|]. eapply Rle_trans; [exact H|apply Rmax_l].
Qed.
Lemma softmax_run minv ex axis (x : arr R) k : wf x -> names_axis (length (a_shape x)) axis k ->
  softmax minv ex axis x = Some (tab (a_shape x) (fun i =>
    ex (rget x i - line_max minv k x i) / rsum (seq 0 (nth k (a_shape x) 0%nat)) (fun l => ex (rget x (set_at k l i) - line_max minv k x i)))).
Proof.
  intros W N. pose proof N as [Hk _]. unfold softmax. rewrite (axis_of_names _ _ _ N). unfold bind at 1.
  destruct (fold_to_set 0 x k minv Rmax Hk) as (mx & -> & Sm & Wm & Gm). unfold bind at 1.
  unfold zip_bc. rewrite Sm, co_broadcast_set. unfold bind at 1. cbv zeta.
  set (d := tab (a_shape x) _). assert (Wd : wf d) by apply tab_wf. assert (Sd : a_shape d = a_shape x) by reflexivity.
  assert (Gd : forall i, in_bounds (a_shape x) i -> rget d i = rget x i - line_max minv k x i).
  { intros i Hi. unfold d. rewrite aget_tab by exact Hi. rewrite bc_idx_self by exact Hi. rewrite bc_idx_set by exact Hi.
    rewrite (Gm i 0 Hi). reflexivity. }
  destruct (fold_to_set 0 (amap ex d) k 0 Rplus Hk) as (s & Es & Ss & Ws & Gs). cbn [a_shape amap] in Es, Ss. rewrite Sd in Es, Ss. rewrite Es. unfold bind.
  unfold zip_mut. rewrite Ss. cbn [amap a_shape]. rewrite Sd, can_broadcast_set. f_equal. apply tab_ext. intros i Hi.
  rewrite (aget_map 0) by (auto; rewrite Sd; exact Hi). rewrite Gd by exact Hi. f_equal. rewrite bc_idx_set by exact Hi.
  rewrite (Gs i 0) by (cbn [amap a_shape]; rewrite Sd; exact Hi). cbn [amap a_shape]. rewrite Sd. rewrite fold_plus. apply sum_ext. intros l Hl. apply in_seq in Hl.
  assert (Hs : in_bounds (a_shape x) (set_at k l i)) by (apply set_in; [exact Hi|lia]).
  change (Arr (a_shape x) (map ex (a_data d))) with (amap ex d). rewrite (aget_map 0) by (auto; rewrite Sd; exact Hs). rewrite Gd by exact Hs. f_equal. f_equal.
  unfold line_max. f_equal. apply map_ext. intros m. rewrite set_set. reflexivity.
Qed.
Lemma softmax_smax minv axis (x : arr R) k : wf x -> names_axis (length (a_shape x)) axis k -> softmax minv exp axis x = Some (smax k x).
Proof.
  intros W N. rewrite (softmax_run minv exp axis x k W N). f_equal. apply tab_ext. intros i Hi. set (c := line_max minv k x i).
  rewrite line_sum_rsum. unfold Rminus. rewrite exp_plus.
  rewrite (sum_ext 0 Rplus _ _ (fun l => exp (rget x (set_at k l i)) * exp (- c))) by (intros l _; rewrite exp_plus; reflexivity).
  rewrite (sum_scale_r 0 1 Rplus Rmult Rminus Ropp RT).
  assert (P : 0 < rsum (seq 0 (nth k (a_shape x) 0%nat)) (fun l => exp (rget x (set_at k l i)))) by (rewrite <- (line_sum_rsum k x exp i); apply line_pos; [exact Hi|apply N]).
  pose proof (exp_pos (- c)). field. split; lra.
Qed.
