From Coq Require Import List Arith ZArith Bool Lia Reals Lra RealField Permutation.
Import ListNotations.
From Verif Require Import Eval_Proofs Array_Model Array_Proofs Array_Sum Arith_Model Arith_Proofs Broadcast_Spec Vjp_Spec Vjp_Proofs Arith_Final Reduce_Model Reduce_Spec Reduce_Proofs Shape_Spec Dot_Model Dot_Spec Dot_Proofs Softmax_Model Softmax_Spec Softmax_Proofs.
Local Open Scope R_scope.

(** ** Elementwise operations on equal and on kept-axis shapes *)
Section Elementwise.
  Variable at_empty : arr R -> option R.
  Hypothesis AE : at_empty_ok 0 at_empty.

  Lemma pointwise_tab op x0 x1 y sh (h : list nat -> R) : a_shape y = sh -> pointwise 0 op x0 x1 y ->
    (forall i, in_bounds sh i -> op (rget x0 (bc_idx (a_shape x0) i)) (rget x1 (bc_idx (a_shape x1) i)) = h i) -> y = tab sh h.
  Proof.
    intros Sy [Wy G] H. apply (arr_ext 0); [exact Wy|apply tab_wf|exact Sy|]. intros i Hi. rewrite G by exact Hi.
    rewrite Sy in Hi. rewrite aget_tab by exact Hi. apply H. exact Hi.
  Qed.
  Lemma mul_same sh a b : a_shape a = sh -> wf a -> a_shape b = sh -> wf b -> prod sh <> 0%nat ->
    mul_forward 0 Rmult at_empty a b = Some (tab sh (fun i => rget a i * rget b i)).
  Proof.
    intros Sa Wa Sb Wb P.
    destruct (bin_forward_ok 0 at_empty AE Rmult a b sh Rmult_comm Wa Wb) as (y & E & Sy & Q); [rewrite Sa, Sb; apply co_broadcast_self|exact P|].
    unfold mul_forward. rewrite E. f_equal. apply (pointwise_tab Rmult a b y sh _ Sy Q). intros i Hi. rewrite Sa, Sb, bc_idx_self by exact Hi. reflexivity.
  Qed.
  Lemma mul_set sh k a b : a_shape a = sh -> wf a -> a_shape b = set_at k 1%nat sh -> wf b -> prod sh <> 0%nat ->
    mul_forward 0 Rmult at_empty a b = Some (tab sh (fun i => rget a i * rget b (set_at k 0%nat i))).
  Proof.
    intros Sa Wa Sb Wb P.
    destruct (bin_forward_ok 0 at_empty AE Rmult a b sh Rmult_comm Wa Wb) as (y & E & Sy & Q); [rewrite Sa, Sb; apply co_broadcast_set|exact P|].
    unfold mul_forward. rewrite E. f_equal. apply (pointwise_tab Rmult a b y sh _ Sy Q). intros i Hi. rewrite Sa, Sb, bc_idx_self, bc_idx_set by exact Hi. reflexivity.
  Qed.
  Lemma sub_same sh a b : a_shape a = sh -> wf a -> a_shape b = sh -> wf b ->
    sub_forward 0 Rminus at_empty a b = Some (tab sh (fun i => rget a i - rget b i)).
  Proof.
    intros Sa Wa Sb Wb.
    destruct (sub_forward_ok 0 Rminus at_empty AE a b sh Wa Wb) as (y & E & Sy & Q); [rewrite Sa, Sb; apply co_broadcast_self|].
    rewrite E. f_equal. apply (pointwise_tab Rminus a b y sh _ Sy Q). intros i Hi. rewrite Sa, Sb, bc_idx_self by exact Hi. reflexivity.
  Qed.
  Lemma sub_set sh k a b : a_shape a = sh -> wf a -> a_shape b = set_at k 1%nat sh -> wf b ->
    sub_forward 0 Rminus at_empty a b = Some (tab sh (fun i => rget a i - rget b (set_at k 0%nat i))).
  Proof.
    intros Sa Wa Sb Wb.
    destruct (sub_forward_ok 0 Rminus at_empty AE a b sh Wa Wb) as (y & E & Sy & Q); [rewrite Sa, Sb; apply co_broadcast_set|].
    rewrite E. f_equal. apply (pointwise_tab Rminus a b y sh _ Sy Q). intros i Hi. rewrite Sa, Sb, bc_idx_self, bc_idx_set by exact Hi. reflexivity.
  Qed.
End Elementwise.

(** reduce_sum over one axis, keeping it. *)
Lemma reduce_line axis (p : arr R) k : a_shape p <> [0%nat] -> names_axis (length (a_shape p)) axis k ->
  exists s, reduce 0 Rplus 0 [axis] true false p = Some s /\ a_shape s = set_at k 1%nat (a_shape p) /\ wf s /\
    forall i, in_bounds (a_shape p) i -> rget s (set_at k 0%nat i) = rsum (seq 0 (nth k (a_shape p) 0%nat)) (fun l => rget p (set_at k l i)).
Proof.
  intros N0 N. pose proof N as [Hk _]. unfold reduce, preprocess_axes. rewrite (normalize_names _ [axis] [k]) by (constructor; [exact N|constructor]).
  unfold bind, compute_reduce.
  assert (NS : is_scalar_shape (a_shape p) = false).
  { unfold is_scalar_shape. destruct (shape_eqb (a_shape p) []) eqn:Q1; [apply shape_eqb_ok in Q1; rewrite Q1 in Hk; simpl in Hk; lia|].
    destruct (shape_eqb (a_shape p) [0%nat]) eqn:Q2; [apply shape_eqb_ok in Q2; contradiction|reflexivity]. }
  rewrite NS. simpl sort. simpl rev. unfold reduce_axes.
  destruct (fold_to_set 0 p k 0 Rplus Hk) as (s & Es & Ss & Ws & Gs). unfold fold_to, bind in Es.
  destruct (fold_axis 0 p k 0 Rplus) as [r|] eqn:Er; [|discriminate]. unfold expand_dims.
  assert (Sr : a_shape r = remove_at k (a_shape p)).
  { unfold fold_axis in Er. destruct (nth_error _ _); [|discriminate]. injection Er as <-. reflexivity. }
  assert (Lr : (k <=? length (a_shape r))%nat = true) by (apply Nat.leb_le; rewrite Sr, remove_length; lia).
  rewrite Lr, Sr, remove_insert_set, Es by exact Hk. exists s. split; [reflexivity|]. split; [exact Ss|]. split; [exact Ws|].
  intros i Hi. rewrite (Gs i 0 Hi). apply fold_plus.
Qed.

(** ** The gradient of softmax *)
Lemma ne_not_zero (sh : list nat) : prod sh <> 0%nat -> sh <> [0%nat].
Proof. intros H ->. apply H. reflexivity. Qed.
Lemma softmax_grad_run at_empty axis k (y gy : arr R) : at_empty_ok 0 at_empty -> wf y -> has_shape (a_shape y) gy -> prod (a_shape y) <> 0%nat ->
  names_axis (length (a_shape y)) axis k ->
  softmax_grad at_empty axis y gy =
    Some (tab (a_shape y) (fun i => (rget gy i - rsum (seq 0 (nth k (a_shape y) 0%nat)) (fun l => rget y (set_at k l i) * rget gy (set_at k l i))) * rget y i)).
Proof.
  intros AE Wy Hg P N. apply has_shape_wf in Hg. destruct Hg as [Sg Wg]. unfold softmax_grad.
  rewrite (mul_same at_empty AE (a_shape y)) by auto. unfold bind at 1.
  set (p := tab _ _). destruct (reduce_line axis p k) as (s & Es & Ss & Ws & Gs); [apply ne_not_zero; exact P|exact N|].
  rewrite Es. unfold bind at 1. change (a_shape p) with (a_shape y) in *.
  rewrite (sub_set at_empty AE (a_shape y) k) by auto. unfold bind.
  rewrite (mul_same at_empty AE (a_shape y)) by (auto; apply tab_wf). f_equal. apply tab_ext. intros i Hi.
  rewrite aget_tab by exact Hi. f_equal. f_equal. rewrite (Gs i Hi). apply sum_ext. intros l Hl. apply in_seq in Hl.
  unfold p. rewrite aget_tab by (apply set_in; [exact Hi|lia]). reflexivity.
Qed.
Lemma derivable_exp_line a b : derivable_pt_lim (fun t => exp (a + t * b)) 0 (exp a * b).
Proof. apply derivable_line. apply derivable_pt_lim_exp. Qed.
Lemma step_line_sum k x v i t : has_shape (a_shape x) x -> has_shape (a_shape x) v -> in_bounds (a_shape x) i ->
  line_sum k (step x v t) exp i = rsum (seq 0 (nth k (a_shape x) 0%nat)) (fun l => exp (rget x (set_at k l i) + t * rget v (set_at k l i))).
Proof.
  intros Hx Hv Hi. rewrite line_sum_rsum. change (a_shape (step x v t)) with (a_shape x). apply sum_ext. intros l Hl. apply in_seq in Hl.
  rewrite (step_get (a_shape x)) by first [assumption | apply set_in; [exact Hi|lia]]. reflexivity.
Qed.
Lemma derivable_line_sum k x v i : has_shape (a_shape x) x -> has_shape (a_shape x) v -> in_bounds (a_shape x) i ->
  derivable_pt_lim (fun t => line_sum k (step x v t) exp i) 0
    (rsum (seq 0 (nth k (a_shape x) 0%nat)) (fun l => exp (rget x (set_at k l i)) * rget v (set_at k l i))).
Proof.
  intros Hx Hv Hi.
  apply (derivable_ext (fun t => rsum (seq 0 (nth k (a_shape x) 0%nat)) (fun l => exp (rget x (set_at k l i) + t * rget v (set_at k l i))))); [intros t; symmetry; apply step_line_sum; auto|].
  apply derivable_sum. intros l _. apply derivable_exp_line.
Qed.
Lemma step0 x v : has_shape (a_shape x) x -> has_shape (a_shape x) v -> step x v 0 = x.
Proof.
  intros Hx Hv. apply (arr_ext 0).
  - pose proof (step_has_shape (a_shape x) x v 0 Hx Hv) as Q. apply has_shape_wf in Q. exact (proj2 Q).
  - apply has_shape_wf in Hx. exact (proj2 Hx).
  - reflexivity.
  - intros i Hi. change (a_shape (step x v 0)) with (a_shape x) in Hi. rewrite (step_get (a_shape x)) by auto. ring.
Qed.
Lemma softmax_vjp minv axis k x gy : prod (a_shape x) <> 0%nat -> has_shape (a_shape x) x -> has_shape (a_shape x) gy -> names_axis (length (a_shape x)) axis k ->
  vjp (softmax minv exp axis) x gy
    (tab (a_shape x) (fun i => (rget gy i - rsum (seq 0 (nth k (a_shape x) 0%nat)) (fun l => rget (smax k x) (set_at k l i) * rget gy (set_at k l i))) * rget (smax k x) i)).
Proof.
  intros P Hx Hg N. pose proof N as [Hk _]. pose proof Hx as Hx'. apply has_shape_wf in Hx'. destruct Hx' as [_ Wx]. pose proof Hg as Hg'. apply has_shape_wf in Hg'. destruct Hg' as [Sg Wg].
  set (n := nth k (a_shape x) 0%nat). set (s := smax k x).
  apply (vjp_coords _ _ _ _ (smax k) (fun i v => rget s i * (rget v i - rsum (seq 0 n) (fun l => rget s (set_at k l i) * rget v (set_at k l i))))); auto.
  - apply tab_has_shape.
  - intros x' Hx''. apply has_shape_wf in Hx''. destruct Hx'' as [Sx' Wx']. split; [apply softmax_smax; [exact Wx'|rewrite Sx'; exact N]|].
    rewrite Sg, <- Sx'. apply tab_has_shape.
  - intros v i Hv Hi. rewrite Sg in Hi.
    assert (LP : line_sum k x exp i <> 0) by (pose proof (line_pos k x i Hi Hk); lra).
    apply (derivable_ext (fun t => exp (rget x i + t * rget v i) / line_sum k (step x v t) exp i)); [intros t; symmetry; unfold smax; rewrite aget_tab by exact Hi; rewrite (step_get (a_shape x)) by auto; reflexivity|].
    assert (Ds : derivable_pt_lim (fun t => exp (rget x i + t * rget v i) / line_sum k (step x v t) exp i) 0
      ((exp (rget x i) * rget v i * line_sum k (step x v 0) exp i - rsum (seq 0 n) (fun l => exp (rget x (set_at k l i)) * rget v (set_at k l i)) * exp (rget x i + 0 * rget v i)) / Rsqr (line_sum k (step x v 0) exp i))).
    { apply (derivable_pt_lim_div (fun t => exp (rget x i + t * rget v i)) (fun t => line_sum k (step x v t) exp i)).
      - apply derivable_exp_line.
      - apply derivable_line_sum; auto.
      - rewrite step0 by auto. exact LP. }
    rewrite step0 in Ds by auto. rewrite Rmult_0_l, Rplus_0_r in Ds.
    replace (rget s i * _) with ((exp (rget x i) * rget v i * line_sum k x exp i - rsum (seq 0 n) (fun l => exp (rget x (set_at k l i)) * rget v (set_at k l i)) * exp (rget x i)) / Rsqr (line_sum k x exp i)); [exact Ds|].
    rewrite (sum_ext 0 Rplus (seq 0 n) (fun l => rget s (set_at k l i) * rget v (set_at k l i)) (fun l => (exp (rget x (set_at k l i)) * rget v (set_at k l i)) * / line_sum k x exp i)).
    + rewrite (sum_scale_r 0 1 Rplus Rmult Rminus Ropp RT). unfold s, smax. rewrite aget_tab by exact Hi. unfold Rsqr. field. exact LP.
    + intros l Hl. apply in_seq in Hl. unfold s, smax. rewrite aget_tab by (apply set_in; [exact Hi|unfold n in Hl; lia]). rewrite line_sum_same. unfold Rdiv. ring.
  - intros v Hv. rewrite Sg.
    transitivity (rsum (indices (a_shape x)) (fun i => rget gy i * rget s i * rget v i) + - rsum (indices (a_shape x)) (fun i => rsum (seq 0 n) (fun l => rget gy i * rget s i * (rget s (set_at k l i) * rget v (set_at k l i))))).
    + rewrite <- (sum_opp 0 1 Rplus Rmult Rminus Ropp RT), <- (sum_add 0 1 Rplus Rmult Rminus Ropp RT). apply sum_ext. intros i _.
      rewrite (sum_scale 0 1 Rplus Rmult Rminus Ropp RT). ring.
    + unfold n at 1. rewrite (line_swap k (a_shape x) (fun i j => rget gy i * rget s i * (rget s j * rget v j)) Hk).
      rewrite <- (sum_opp 0 1 Rplus Rmult Rminus Ropp RT), <- (sum_add 0 1 Rplus Rmult Rminus Ropp RT). apply sum_ext. intros i Hi. apply indices_in in Hi.
      rewrite aget_tab by exact Hi. fold n. rewrite (sum_scale_r 0 1 Rplus Rmult Rminus Ropp RT).
      rewrite (sum_ext 0 Rplus (seq 0 n) (fun l => rget gy (set_at k l i) * rget s (set_at k l i)) (fun l => rget s (set_at k l i) * rget gy (set_at k l i))) by (intros; ring). ring.
Qed.

(** ** log-sum-exp *)
Definition lse (x : arr R) (k : nat) (i : list nat) : R := ln (line_sum k x exp i).
Lemma shifted_lse k x i c : in_bounds (a_shape x) i -> (k < length (a_shape x))%nat ->
  ln (rsum (seq 0 (nth k (a_shape x) 0%nat)) (fun l => exp (rget x (set_at k l i) - c))) + c = lse x k i.
Proof.
  intros Hi Hk. unfold lse. pose proof (line_pos k x i Hi Hk) as P. rewrite line_sum_rsum in *.
  rewrite (sum_ext 0 Rplus _ _ (fun l => exp (rget x (set_at k l i)) * exp (- c))) by (intros l _; unfold Rminus; rewrite exp_plus; reflexivity).
  rewrite (sum_scale_r 0 1 Rplus Rmult Rminus Ropp RT), ln_mult, ln_exp; [ring|exact P|apply exp_pos].
Qed.
Lemma in_set1 k sh j : in_bounds (set_at k 1%nat sh) j -> set_at k 0%nat j = j.
Proof.
  revert sh j. induction k as [|k IH]; intros [|d sh] j H; simpl in H; inversion H; subst; simpl; try reflexivity.
  - f_equal. lia.
  - f_equal. eapply IH. eassumption.
Qed.
Lemma set1_back k sh j l : in_bounds (set_at k 1%nat sh) j -> (l < nth k sh 0)%nat -> in_bounds sh (set_at k l j).
Proof.
  intros H L. rewrite <- (set_nth_self k sh), <- (set_set k (nth k sh 0%nat) 1%nat sh). apply in_bounds_set; [exact H|exact L].
Qed.
Lemma logsumexp_run minv axis x k : wf x -> prod (a_shape x) <> 0%nat -> names_axis (length (a_shape x)) axis k ->
  logsumexp minv exp axis true x = Some (tab (set_at k 1%nat (a_shape x)) (fun j => lse x k j)).
Proof.
  intros W P N. pose proof N as [Hk _]. unfold logsumexp. rewrite (axis_of_names _ _ _ N). unfold bind at 1.
  destruct (fold_to_set 0 x k minv Rmax Hk) as (mx & -> & Sm & Wm & Gm). unfold bind at 1.
  unfold zip_bc. rewrite Sm, co_broadcast_set. unfold bind at 1.
  set (d := tab (a_shape x) _). assert (Wd : wf d) by apply tab_wf. assert (Sd : a_shape d = a_shape x) by reflexivity.
  assert (Gd : forall i, in_bounds (a_shape x) i -> rget d i = rget x i - line_max minv k x i).
  { intros i Hi. unfold d. rewrite aget_tab by exact Hi. rewrite bc_idx_self by exact Hi. rewrite bc_idx_set by exact Hi. rewrite (Gm i 0 Hi). reflexivity. }
  destruct (fold_to_set 0 (amap exp d) k 0 Rplus Hk) as (s & Es & Ss & Ws & Gs). cbn [a_shape amap] in Es, Ss. rewrite Sd in Es, Ss. rewrite Es. unfold bind.
  unfold zip_mut. cbn [amap a_shape]. rewrite Ss, Sm, can_broadcast_refl. f_equal. apply tab_ext. intros j Hj.
  assert (D : (0 < nth k (a_shape x) 0)%nat).
  { apply prod_pos in P. rewrite Forall_forall in P. specialize (P (nth k (a_shape x) 0%nat) (nth_In _ _ Hk)). lia. }
  assert (Hi : in_bounds (a_shape x) (set_at k 0%nat j)) by (apply set1_back; assumption).
  rewrite bc_idx_self by exact Hj.
  replace (Arr (set_at k 1%nat (a_shape x)) (map ln (a_data s))) with (amap ln s) by (unfold amap; rewrite Ss; reflexivity).
  rewrite (aget_map 0) by (auto; rewrite Ss; exact Hj).
  rewrite <- (in_set1 k (a_shape x) j Hj). rewrite <- (set_set k 0%nat 0%nat j) at 1 2.
  rewrite (Gs _ 0) by (cbn [amap a_shape]; rewrite Sd; exact Hi). rewrite (Gm _ 0 Hi).
  rewrite fold_plus. cbn [amap a_shape]. rewrite Sd.
  rewrite <- (shifted_lse k x (set_at k 0%nat j) (line_max minv k x (set_at k 0%nat j)) Hi Hk). f_equal. f_equal. apply sum_ext. intros l Hl. apply in_seq in Hl.
  assert (Hs : in_bounds (a_shape x) (set_at k l (set_at k 0%nat j))) by (apply set_in; [exact Hi|lia]).
  change (Arr (a_shape x) (map exp (a_data d))) with (amap exp d). rewrite (aget_map 0) by (auto; rewrite Sd; exact Hs). rewrite Gd by exact Hs. f_equal. f_equal.
  unfold line_max. f_equal. apply map_ext. intros m. rewrite set_set. reflexivity.
Qed.
Definition lsmax (k : nat) (x : arr R) : arr R := tab (a_shape x) (fun i => rget x i - lse x k i).
Lemma log_softmax_run minv axis x k : wf x -> prod (a_shape x) <> 0%nat -> names_axis (length (a_shape x)) axis k ->
  log_softmax minv exp axis x = Some (lsmax k x).
Proof.
  intros W P N. pose proof N as [Hk _]. unfold log_softmax. rewrite (logsumexp_run minv axis x k W P N). unfold bind, zip_bc. cbn [tab a_shape].
  rewrite co_broadcast_set. f_equal. apply tab_ext. intros i Hi. rewrite bc_idx_self, bc_idx_set by exact Hi. f_equal.
  change (Arr (set_at k 1%nat (a_shape x)) (map (lse x k) (indices (set_at k 1%nat (a_shape x))))) with (tab (set_at k 1%nat (a_shape x)) (lse x k)).
  rewrite aget_tab by (apply in_bounds_set; [exact Hi|lia]). unfold lse. rewrite line_sum_same. reflexivity.
Qed.
Lemma derivable_lse k x v i : has_shape (a_shape x) x -> has_shape (a_shape x) v -> in_bounds (a_shape x) i -> (k < length (a_shape x))%nat ->
  derivable_pt_lim (fun t => lse (step x v t) k i) 0
    (rsum (seq 0 (nth k (a_shape x) 0%nat)) (fun l => rget (smax k x) (set_at k l i) * rget v (set_at k l i))).
Proof.
  intros Hx Hv Hi Hk. unfold lse. pose proof (line_pos k x i Hi Hk) as P.
  assert (D : derivable_pt_lim (fun t => ln (line_sum k (step x v t) exp i)) 0 (/ line_sum k x exp i * rsum (seq 0 (nth k (a_shape x) 0%nat)) (fun l => exp (rget x (set_at k l i)) * rget v (set_at k l i)))).
  { apply (derivable_pt_lim_comp (fun t => line_sum k (step x v t) exp i) ln); [apply derivable_line_sum; auto|].
    rewrite step0 by auto. apply derivable_pt_lim_ln. exact P. }
  rewrite <- (sum_scale 0 1 Rplus Rmult Rminus Ropp RT) in D.
  rewrite (sum_ext 0 Rplus _ _ (fun l => / line_sum k x exp i * (exp (rget x (set_at k l i)) * rget v (set_at k l i)))); [exact D|].
  intros l Hl. apply in_seq in Hl. unfold smax. rewrite aget_tab by (apply set_in; [exact Hi|lia]). rewrite line_sum_same. unfold Rdiv. ring.
Qed.
Lemma log_softmax_vjp minv axis k x gy : prod (a_shape x) <> 0%nat -> has_shape (a_shape x) x -> has_shape (a_shape x) gy -> names_axis (length (a_shape x)) axis k ->
  vjp (log_softmax minv exp axis) x gy
    (tab (a_shape x) (fun i => rget gy i - rget (smax k x) i * rsum (seq 0 (nth k (a_shape x) 0%nat)) (fun l => rget gy (set_at k l i)))).
Proof.
  intros P Hx Hg N. pose proof N as [Hk _]. pose proof Hx as Hx'. apply has_shape_wf in Hx'. destruct Hx' as [_ Wx]. pose proof Hg as Hg'. apply has_shape_wf in Hg'. destruct Hg' as [Sg Wg].
  set (n := nth k (a_shape x) 0%nat). set (s := smax k x).
  apply (vjp_coords _ _ _ _ (lsmax k) (fun i v => rget v i - rsum (seq 0 n) (fun l => rget s (set_at k l i) * rget v (set_at k l i)))); auto.
  - apply tab_has_shape.
  - intros x' Hx''. apply has_shape_wf in Hx''. destruct Hx'' as [Sx' Wx']. split; [apply log_softmax_run; [exact Wx'|rewrite Sx'; exact P|rewrite Sx'; exact N]|].
    rewrite Sg, <- Sx'. apply tab_has_shape.
  - intros v i Hv Hi. rewrite Sg in Hi.
    apply (derivable_ext (fun t => (rget x i + t * rget v i) - lse (step x v t) k i)); [intros t; symmetry; unfold lsmax; rewrite aget_tab by exact Hi; rewrite (step_get (a_shape x)) by auto; reflexivity|].
    apply (derivable_pt_lim_minus (fun t => rget x i + t * rget v i) (fun t => lse (step x v t) k i)).
    + pose proof (derivable_line (fun y => y) (rget x i) (rget v i) 1 (derivable_pt_lim_id _)) as Q. rewrite Rmult_1_l in Q. exact Q.
    + apply derivable_lse; auto.
  - intros v Hv. rewrite Sg.
    transitivity (rsum (indices (a_shape x)) (fun i => rget gy i * rget v i) + - rsum (indices (a_shape x)) (fun i => rsum (seq 0 n) (fun l => rget gy i * (rget s (set_at k l i) * rget v (set_at k l i))))).
    + rewrite <- (sum_opp 0 1 Rplus Rmult Rminus Ropp RT), <- (sum_add 0 1 Rplus Rmult Rminus Ropp RT). apply sum_ext. intros i _.
      rewrite (sum_scale 0 1 Rplus Rmult Rminus Ropp RT). ring.
    + unfold n at 1. rewrite (line_swap k (a_shape x) (fun i j => rget gy i * (rget s j * rget v j)) Hk).
      rewrite <- (sum_opp 0 1 Rplus Rmult Rminus Ropp RT), <- (sum_add 0 1 Rplus Rmult Rminus Ropp RT). apply sum_ext. intros i Hi. apply indices_in in Hi.
      rewrite aget_tab by exact Hi. fold n. rewrite (sum_scale_r 0 1 Rplus Rmult Rminus Ropp RT). ring.
Qed.
(** The gradient actually computed sums over axis 1, whatever the axis. *)
Lemma log_softmax_grad_run at_empty axis k x gy : at_empty_ok 0 at_empty -> has_shape (a_shape x) x -> has_shape (a_shape x) gy -> prod (a_shape x) <> 0%nat -> (1 < length (a_shape x))%nat -> (k < length (a_shape x))%nat ->
  log_softmax_grad exp at_empty axis (lsmax k x) gy =
    Some (tab (a_shape x) (fun i => rget gy i - rget (smax k x) i * rsum (seq 0 (nth 1 (a_shape x) 0%nat)) (fun l => rget gy (set_at 1 l i)))).
Proof.
  intros AE Hx Hg P H1 Hk. apply has_shape_wf in Hg. destruct Hg as [Sg Wg]. unfold log_softmax_grad.
  destruct (reduce_line 1 gy 1) as (s & Es & Ss & Ws & Gs); [rewrite Sg; apply ne_not_zero; exact P|rewrite Sg; split; [exact H1|left; reflexivity]|].
  rewrite Es. unfold bind at 1. rewrite Sg in *.
  rewrite (mul_set at_empty AE (a_shape x) 1) by (auto; apply amap_wf, tab_wf). unfold bind.
  rewrite (sub_same at_empty AE (a_shape x)) by (auto; apply tab_wf). f_equal. apply tab_ext. intros i Hi. rewrite aget_tab by exact Hi. f_equal. f_equal; [|apply Gs; exact Hi].
  rewrite (aget_map 0) by (auto; apply tab_wf). unfold lsmax. rewrite aget_tab by exact Hi. unfold smax. rewrite aget_tab by exact Hi.
  unfold Rminus. rewrite exp_plus, exp_Ropp. unfold lse. rewrite exp_ln by (apply line_pos; assumption). reflexivity.
Qed.
