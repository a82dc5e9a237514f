From Coq Require Import List Arith ZArith Bool Lia Reals Lra RealField Permutation.
Import ListNotations.
From Verif Require Import Eval_Proofs Array_Model Array_Proofs Array_Sum Arith_Model Arith_Proofs Broadcast_Spec Vjp_Spec Vjp_Proofs Arith_Final Reduce_Model Reduce_Spec Reduce_Proofs Shape_Spec Dot_Model Dot_Spec Dot_Proofs Softmax_Model Softmax_Spec Softmax_Proofs Softmax_Proofs2.
Local Open Scope R_scope.

(** ** Gradient of log-sum-exp *)
Lemma line_split k : forall sh (f : list nat -> R), (k < length sh)%nat ->
  rsum (indices sh) f = rsum (indices (set_at k 1%nat sh)) (fun j => rsum (seq 0 (nth k sh 0%nat)) (fun l => f (set_at k l j))).
Proof.
  induction k as [|k IH]; intros [|d sh] f H; simpl in H; try lia.
  - simpl set_at. simpl nth.
    change (indices (d :: sh)) with (flat_map (fun i => map (cons i) (indices sh)) (seq 0 d)).
    change (indices (1%nat :: sh)) with (map (cons 0%nat) (indices sh) ++ []). rewrite app_nil_r.
    rewrite (sum_flat_map 0 1 Rplus Rmult Rminus Ropp RT), sum_map.
    rewrite (sum_swap 0 1 Rplus Rmult Rminus Ropp RT (indices sh)). apply sum_ext. intros a _. rewrite sum_map. reflexivity.
  - simpl set_at. simpl nth. simpl indices. rewrite !(sum_flat_map 0 1 Rplus Rmult Rminus Ropp RT). apply sum_ext. intros a _. rewrite !sum_map.
    apply (IH sh (fun i => f (a :: i))). lia.
Qed.
Lemma dims_pos sh k : prod sh <> 0%nat -> (k < length sh)%nat -> (0 < nth k sh 0)%nat.
Proof. intros P Hk. apply prod_pos in P. rewrite Forall_forall in P. specialize (P (nth k sh 0%nat) (nth_In _ _ Hk)). lia. Qed.
Lemma logsumexp_vjp minv axis k x gy : prod (a_shape x) <> 0%nat -> has_shape (a_shape x) x -> has_shape (set_at k 1%nat (a_shape x)) gy -> names_axis (length (a_shape x)) axis k ->
  vjp (logsumexp minv exp axis true) x gy (tab (a_shape x) (fun i => rget (smax k x) i * rget gy (set_at k 0%nat i))).
Proof.
  intros P Hx Hg N. pose proof N as [Hk _]. pose proof Hx as Hx'. apply has_shape_wf in Hx'. destruct Hx' as [_ Wx]. pose proof Hg as Hg'. apply has_shape_wf in Hg'. destruct Hg' as [Sg Wg].
  pose proof (dims_pos _ k P Hk) as D. set (n := nth k (a_shape x) 0%nat) in *. set (s := smax k x).
  apply (vjp_coords _ _ _ _ (fun x' => tab (set_at k 1%nat (a_shape x')) (lse x' k)) (fun j v => rsum (seq 0 n) (fun l => rget s (set_at k l j) * rget v (set_at k l j)))); auto.
  - apply tab_has_shape.
  - intros x' Hx''. apply has_shape_wf in Hx''. destruct Hx'' as [Sx' Wx']. split; [apply logsumexp_run; [exact Wx'|rewrite Sx'; exact P|rewrite Sx'; exact N]|].
    rewrite Sg, <- Sx'. apply tab_has_shape.
  - intros v j Hv Hj. rewrite Sg in Hj.
    apply (derivable_ext (fun t => lse (step x v t) k j)); [intros t; symmetry; rewrite aget_tab by exact Hj; reflexivity|].
    apply derivable_lse; auto. rewrite <- (in_set1 k _ j Hj). apply set1_back; assumption.
  - intros v Hv. rewrite Sg, (line_split k (a_shape x) _ Hk). fold n. apply sum_ext. intros j Hj. apply indices_in in Hj.
    rewrite <- (sum_scale 0 1 Rplus Rmult Rminus Ropp RT). apply sum_ext. intros l Hl. apply in_seq in Hl.
    rewrite aget_tab by (apply set1_back; [exact Hj|unfold n in Hl; lia]). rewrite set_set, (in_set1 k _ j Hj). ring.
Qed.
Lemma logsumexp_grad_run minv at_empty axis k x gy : at_empty_ok 0 at_empty -> prod (a_shape x) <> 0%nat -> has_shape (a_shape x) x -> has_shape (set_at k 1%nat (a_shape x)) gy -> names_axis (length (a_shape x)) axis k ->
  logsumexp_grad minv exp at_empty axis x gy = Some (tab (a_shape x) (fun i => rget (smax k x) i * rget gy (set_at k 0%nat i))).
Proof.
  intros AE P Hx Hg N. apply has_shape_wf in Hx. apply has_shape_wf in Hg. unfold logsumexp_grad. rewrite (softmax_smax minv axis x k) by (auto; apply Hx). unfold bind.
  rewrite (mul_set at_empty AE (a_shape x) k); [reflexivity|reflexivity|apply tab_wf|apply Hg|apply Hg|exact P].
Qed.

(** Dropping the first axis. *)
Lemma co_broadcast_tl d sh : co_broadcast (d :: sh) sh = Some (d :: sh).
Proof.
  unfold co_broadcast. simpl length. replace (S (length sh) - length sh)%nat with 1%nat by lia. replace (length sh - S (length sh))%nat with 0%nat by lia.
  simpl. rewrite co_dims_self. reflexivity.
Qed.
Lemma bc_idx_tl sh a j : in_bounds sh j -> bc_idx sh (a :: j) = j.
Proof.
  intros H. rewrite <- (bc_idx_self sh j H) at 2. unfold bc_idx. pose proof (in_bounds_length _ _ H) as L. simpl length. rewrite L.
  replace (S (length sh) - length sh)%nat with 1%nat by lia. rewrite Nat.sub_diag. reflexivity.
Qed.
Lemma logsumexp_drop minv axis d sh x : a_shape x = d :: sh -> wf x -> (0 < d)%nat -> names_axis (S (length sh)) axis 0 ->
  logsumexp minv exp axis false x = Some (tab sh (fun j => lse x 0 (0%nat :: j))).
Proof.
  intros Sx W Hd N. assert (N' : names_axis (length (a_shape x)) axis 0) by (rewrite Sx; exact N). pose proof N' as [Hk _].
  unfold logsumexp. rewrite (axis_of_names _ _ _ N'). unfold bind at 1.
  destruct (fold_to_remove 0 x 0 minv Rmax Hk) as (mx & E & Sm & Wm & Gm). rewrite E. unfold bind at 1. rewrite Sx in *. simpl remove_at in *.
  unfold zip_bc. rewrite Sx, Sm, co_broadcast_tl. unfold bind at 1.
  set (q := tab (d :: sh) _). assert (Wq : wf q) by apply tab_wf.
  assert (Gq : forall a j, in_bounds (d :: sh) (a :: j) -> rget q (a :: j) = rget x (a :: j) - line_max minv 0 x (0%nat :: j)).
  { intros a j Hi. unfold q. rewrite aget_tab by exact Hi. rewrite bc_idx_self by exact Hi. inversion Hi; subst. rewrite bc_idx_tl by assumption.
    specialize (Gm (a :: j) 0 Hi). simpl in Gm. rewrite Gm. unfold line_max. rewrite Sx. reflexivity. }
  destruct (fold_to_remove 0 (amap exp q) 0 0 Rplus Hk) as (s & Es & Ss & Ws & Gs). cbn [a_shape amap q tab remove_at] in Es, Ss. 
  replace (Arr (d :: sh) (map exp (a_data q))) with (amap exp q) in Es by reflexivity. rewrite Es. unfold bind. unfold zip_mut. cbn [amap a_shape]. rewrite Ss, Sm, can_broadcast_refl. f_equal. apply tab_ext. intros j Hj.
  assert (Hi : in_bounds (d :: sh) (0%nat :: j)) by (constructor; assumption).
  replace (Arr sh (map ln (a_data s))) with (amap ln s) by (unfold amap; rewrite Ss; reflexivity).
  rewrite (aget_map 0) by (auto; rewrite Ss; exact Hj). rewrite bc_idx_self by exact Hj.
  specialize (Gs (0%nat :: j) 0 Hi). specialize (Gm (0%nat :: j) 0 Hi). simpl in Gs, Gm.
  change (Arr (d :: sh) (map exp (a_data q))) with (amap exp q) in Gs. rewrite Gs, Gm, fold_plus.
  assert (Hi' : in_bounds (a_shape x) (0%nat :: j)) by (rewrite Sx; exact Hi).
  rewrite <- (shifted_lse 0 x (0%nat :: j) (line_max minv 0 x (0%nat :: j)) Hi' ltac:(rewrite Sx; simpl; lia)).
  rewrite Sx. simpl nth. f_equal; [|unfold line_max; rewrite Sx; reflexivity]. f_equal. apply sum_ext. intros l Hl. apply in_seq in Hl. simpl set_at.
  assert (Hl' : in_bounds (d :: sh) (l :: j)) by (constructor; [lia|assumption]).
  rewrite (aget_map 0) by (auto; exact Hl'). rewrite Gq by exact Hl'. reflexivity.
Qed.
Lemma logsumexp_drop_vjp minv axis d sh x gy : a_shape x = d :: sh -> prod (d :: sh) <> 0%nat -> has_shape (d :: sh) x -> has_shape sh gy -> names_axis (S (length sh)) axis 0 ->
  vjp (logsumexp minv exp axis false) x gy (tab (d :: sh) (fun i => rget (smax 0 x) i * rget gy (tl i))).
Proof.
  intros Sx P Hx Hg N. assert (Hd : (0 < d)%nat) by (apply (dims_pos (d :: sh) 0 P); simpl; lia).
  pose proof Hx as Hx'. apply has_shape_wf in Hx'. destruct Hx' as [_ Wx]. pose proof Hg as Hg'. apply has_shape_wf in Hg'. destruct Hg' as [Sg Wg].
  set (s := smax 0 x).
  apply (vjp_coords _ _ _ _ (fun x' => tab sh (fun j => lse x' 0 (0%nat :: j))) (fun j v => rsum (seq 0 d) (fun l => rget s (l :: j) * rget v (l :: j)))); auto.
  - rewrite Sx. apply tab_has_shape.
  - rewrite Sx. intros x' Hx''. apply has_shape_wf in Hx''. destruct Hx'' as [Sx' Wx']. split; [apply (logsumexp_drop minv axis d sh); auto|].
    rewrite Sg. apply tab_has_shape.
  - intros v j Hv Hj. rewrite Sg in Hj.
    apply (derivable_ext (fun t => lse (step x v t) 0 (0%nat :: j))); [intros t; symmetry; rewrite aget_tab by exact Hj; reflexivity|].
    pose proof (derivable_lse 0 x v (0%nat :: j)) as Q. rewrite Sx in Q. apply Q; [exact Hx|rewrite <- Sx; exact Hv|constructor; assumption|simpl; lia].
  - intros v Hv. rewrite Sg, Sx. rewrite (line_split 0 (d :: sh)) by (simpl; lia). simpl set_at. simpl nth.
    change (indices (1%nat :: sh)) with (map (cons 0%nat) (indices sh) ++ []). rewrite app_nil_r, sum_map. apply sum_ext. intros j Hj. apply indices_in in Hj.
    rewrite <- (sum_scale 0 1 Rplus Rmult Rminus Ropp RT). apply sum_ext. intros l Hl. apply in_seq in Hl.
    rewrite aget_tab by (constructor; [lia|assumption]). simpl tl. ring.
Qed.
Lemma logsumexp_grad_drop minv at_empty axis d sh x gy : at_empty_ok 0 at_empty -> a_shape x = d :: sh -> prod (d :: sh) <> 0%nat -> wf x -> has_shape sh gy -> names_axis (S (length sh)) axis 0 ->
  logsumexp_grad minv exp at_empty axis x gy = Some (tab (d :: sh) (fun i => rget (smax 0 x) i * rget gy (tl i))).
Proof.
  intros AE Sx P Wx Hg N. apply has_shape_wf in Hg. destruct Hg as [Sg Wg]. unfold logsumexp_grad. rewrite (softmax_smax minv axis x 0) by (auto; rewrite Sx; exact N). unfold bind.
  destruct (bin_forward_ok 0 at_empty AE Rmult (smax 0 x) gy (d :: sh) Rmult_comm) as (y & E & Sy & Q).
  - apply tab_wf.
  - exact Wg.
  - simpl. rewrite Sx, Sg. apply co_broadcast_tl.
  - exact P.
  - unfold mul_forward. rewrite E. f_equal. apply (pointwise_tab Rmult _ _ y (d :: sh) _ Sy Q). intros i Hi. simpl a_shape. rewrite Sx, Sg, bc_idx_self by exact Hi.
    f_equal. f_equal. inversion Hi; subst. simpl tl. apply bc_idx_tl. assumption.
Qed.

(** ** Sigmoid cross entropy *)
Lemma stable_softplus a : ln (exp (- Rabs a) + 1) + Rmax 0 a = ln (1 + exp a).
Proof.
  destruct (Rle_dec 0 a) as [H|H].
  - rewrite Rabs_right, Rmax_right by lra.
    replace (1 + exp a) with ((exp (- a) + 1) * exp a).
    + pose proof (exp_pos a). pose proof (exp_pos (- a)). rewrite ln_mult, ln_exp by lra. reflexivity.
    + rewrite Rmult_plus_distr_r, <- exp_plus. replace (- a + a) with 0 by ring. rewrite exp_0. ring.
  - rewrite Rabs_left, Rmax_left by lra. rewrite Ropp_involutive, Rplus_comm. rewrite (Rplus_comm 0), Rplus_0_r. f_equal. ring.
Qed.
Definition sxent (x t : arr R) : arr R := tab (a_shape x) (fun i => ln (1 + exp (rget x i)) - rget t i * rget x i).
Lemma sigmoid_xent_run x t : wf x -> wf t -> a_shape t = a_shape x -> sigmoid_xent exp x t = Some (sxent x t).
Proof.
  intros Wx Wt St. unfold sigmoid_xent. rewrite St. rewrite (proj2 (shape_eqb_ok (a_shape x) (a_shape x)) eq_refl).
  unfold zip_bc. rewrite St, co_broadcast_self. unfold bind, zip_mut. cbn [tab a_shape amap]. rewrite can_broadcast_refl. f_equal.
  apply tab_ext. intros i Hi. rewrite bc_idx_self by exact Hi.
  match goal with |- aget 0 ?p i - aget 0 ?q i = _ => change p with (amap (fun a => ln (exp (- Rabs a) + 1) + Rmax 0 a) x);
    change q with (tab (a_shape x) (fun i => rget t (bc_idx (a_shape x) i) * rget x (bc_idx (a_shape x) i))) end.
  rewrite (aget_map 0) by auto. rewrite aget_tab by exact Hi. rewrite bc_idx_self by exact Hi. rewrite stable_softplus. reflexivity.
Qed.
Lemma derivable_softplus a : derivable_pt_lim (fun a => ln (1 + exp a)) a (exp a / (1 + exp a)).
Proof.
  pose proof (exp_pos a). replace (exp a / (1 + exp a)) with (/ (1 + exp a) * (0 + exp a)) by (unfold Rdiv; ring).
  apply (derivable_pt_lim_comp (fun a => 1 + exp a) ln).
  - apply (derivable_pt_lim_plus (fun _ => 1) exp); [apply derivable_pt_lim_const|apply derivable_pt_lim_exp].
  - apply derivable_pt_lim_ln. lra.
Qed.
