From Coq Require Import List Arith ZArith Bool Lia Reals Lra RealField Permutation.
Import ListNotations.
From Verif Require Import Eval_Proofs Array_Model Array_Proofs Array_Sum Arith_Model Arith_Proofs Broadcast_Spec Vjp_Spec Vjp_Proofs Arith_Final Reduce_Model Reduce_Spec Reduce_Proofs Shape_Spec Dot_Model Dot_Spec Dot_Proofs Softmax_Model Softmax_Spec Softmax_Proofs Softmax_Proofs2 Softmax_Proofs3.
Local Open Scope R_scope.

(** Elementwise functions. *)
Lemma vjp_pointwise F x gy (phi : list nat -> R -> R) (delta : list nat -> R) : has_shape (a_shape x) x -> has_shape (a_shape x) gy ->
  (forall x', has_shape (a_shape x) x' -> F x' = Some (tab (a_shape x) (fun i => phi i (rget x' i)))) ->
  (forall i, in_bounds (a_shape x) i -> derivable_pt_lim (phi i) (rget x i) (delta i)) ->
  vjp F x gy (tab (a_shape x) (fun i => rget gy i * delta i)).
Proof.
  intros Hx Hg HF HD. pose proof Hg as Hg'. apply has_shape_wf in Hg'. destruct Hg' as [Sg Wg]. pose proof Hx as Hx'. apply has_shape_wf in Hx'. destruct Hx' as [_ Wx].
  apply (vjp_coords _ _ _ _ (fun x' => tab (a_shape x) (fun i => phi i (rget x' i))) (fun i v => delta i * rget v i)); auto.
  - apply tab_has_shape.
  - intros x' H. split; [apply HF; exact H|]. rewrite Sg. apply tab_has_shape.
  - intros v i Hv Hi. rewrite Sg in Hi. apply (derivable_ext (fun t => phi i (rget x i + t * rget v i))).
    + intros t. rewrite aget_tab by exact Hi. rewrite (step_get (a_shape x)) by assumption. reflexivity.
    + apply derivable_line. apply HD. exact Hi.
  - intros v Hv. rewrite Sg. apply sum_ext. intros i Hi. apply indices_in in Hi. rewrite aget_tab by exact Hi. ring.
Qed.

(** ** Sigmoid cross entropy *)
Lemma sigmoid_xent_vjp_x x t gy : has_shape (a_shape x) x -> has_shape (a_shape x) t -> has_shape (a_shape x) gy ->
  vjp (fun x => sigmoid_xent exp x t) x gy (tab (a_shape x) (fun i => rget gy i * (exp (rget x i) / (1 + exp (rget x i)) - rget t i))).
Proof.
  intros Hx Ht Hg. apply has_shape_wf in Ht. destruct Ht as [St Wt].
  apply (vjp_pointwise _ x gy (fun i a => ln (1 + exp a) - rget t i * a)); auto.
  - intros x' H. apply has_shape_wf in H. destruct H as [Sx' Wx']. rewrite sigmoid_xent_run by (auto; congruence). unfold sxent. rewrite Sx'. reflexivity.
  - intros i Hi. apply (derivable_pt_lim_minus (fun a => ln (1 + exp a)) (fun a => rget t i * a)); [apply derivable_softplus|].
    pose proof (derivable_pt_lim_scal id (rget t i) (rget x i) 1 (derivable_pt_lim_id _)) as Q. rewrite Rmult_1_r in Q. exact Q.
Qed.
Lemma sigmoid_xent_vjp_t x t gy : has_shape (a_shape t) x -> has_shape (a_shape t) t -> has_shape (a_shape t) gy ->
  vjp (sigmoid_xent exp x) t gy (tab (a_shape t) (fun i => rget gy i * (0 - rget x i))).
Proof.
  intros Hx Ht Hg. apply has_shape_wf in Hx. destruct Hx as [Sx Wx].
  apply (vjp_pointwise _ t gy (fun i a => ln (1 + exp (rget x i)) - a * rget x i)); auto.
  - intros t' H. apply has_shape_wf in H. destruct H as [St' Wt']. rewrite sigmoid_xent_run by (auto; congruence). unfold sxent. rewrite Sx. reflexivity.
  - intros i Hi. apply (derivable_pt_lim_minus (fun _ => ln (1 + exp (rget x i))) (fun a => a * rget x i)); [apply derivable_pt_lim_const|].
    pose proof (derivable_pt_lim_mult id (fun _ => rget x i) (rget t i) 1 0 (derivable_pt_lim_id _) (derivable_pt_lim_const _ _)) as Q.
    rewrite Rmult_1_l, Rmult_0_r, Rplus_0_r in Q. exact Q.
Qed.
Lemma co_broadcast_nil sh : co_broadcast [] sh = Some sh.
Proof.
  unfold co_broadcast. simpl length. simpl. rewrite Nat.sub_0_r, skipn_all. simpl. rewrite firstn_all, app_nil_r. reflexivity.
Qed.
Lemma sigmoid_xent_grad_x_run at_empty x t gy : at_empty_ok 0 at_empty -> prod (a_shape x) <> 0%nat -> a_shape x <> [1%nat] ->
  has_shape (a_shape x) x -> has_shape (a_shape x) t -> has_shape (a_shape x) gy ->
  sigmoid_xent_grad_x exp at_empty x t gy = Some (tab (a_shape x) (fun i => rget gy i * (exp (rget x i) / (1 + exp (rget x i)) - rget t i))).
Proof.
  intros AE P N1 Hx Ht Hg. apply has_shape_wf in Hx, Ht, Hg. destruct Hx as [_ Wx], Ht as [St Wt], Hg as [Sg Wg]. unfold sigmoid_xent_grad_x.
  set (e := amap exp x). assert (We : wf e) by (apply amap_wf; exact Wx). assert (Se : a_shape e = a_shape x) by reflexivity.
  assert (Ge : forall i, in_bounds (a_shape x) i -> rget e i = exp (rget x i)) by (intros i Hi; apply (aget_map 0); auto).
  destruct (bin_forward_ok 0 at_empty AE Rplus (Arr [] [1]) e (a_shape x) Rplus_comm) as (s & E & Ss & Q).
  { reflexivity. } { exact We. } { rewrite Se. apply co_broadcast_nil. } { exact P. }
  unfold add_forward. rewrite E. unfold bind at 1. rewrite (pointwise_tab Rplus _ _ s (a_shape x) (fun i => 1 + exp (rget x i)) Ss Q).
  2:{ intros i Hi. rewrite Se, (bc_idx_self (a_shape x) i Hi). rewrite Ge by exact Hi. f_equal. }
  clear s E Ss Q. set (s := tab (a_shape x) _). assert (Ws : wf s) by apply tab_wf.
  destruct (div_forward_ok 0 1 Rmult Rdiv at_empty AE e s (a_shape x)) as (q & E & Sq & Q).
  { intros a b. unfold Rdiv. ring. } { exact We. } { exact Ws. } { rewrite Se. apply co_broadcast_self. } { exact P. } { exact N1. }
  rewrite E. unfold bind at 1. rewrite (pointwise_tab Rdiv _ _ q (a_shape x) (fun i => exp (rget x i) / (1 + exp (rget x i))) Sq Q).
  2:{ intros i Hi. rewrite Se. change (a_shape s) with (a_shape x). rewrite bc_idx_self by exact Hi. rewrite Ge by exact Hi. unfold s. rewrite aget_tab by exact Hi. reflexivity. }
  rewrite (sub_same at_empty AE (a_shape x)) by (auto; apply tab_wf). unfold bind at 1.
  rewrite (mul_same at_empty AE (a_shape x)) by (auto; apply tab_wf). f_equal. apply tab_ext. intros i Hi. rewrite !aget_tab by exact Hi. ring.
Qed.
Lemma sigmoid_xent_grad_t_run at_empty x t gy : at_empty_ok 0 at_empty -> prod (a_shape t) <> 0%nat -> has_shape (a_shape t) t -> has_shape (a_shape t) gy ->
  sigmoid_xent_grad_t at_empty x t gy = Some (tab (a_shape t) (fun i => rget gy i * (0 - rget t i))).
Proof.
  intros AE P Ht Hg. apply has_shape_wf in Ht, Hg. destruct Ht as [St Wt], Hg as [Sg Wg]. unfold sigmoid_xent_grad_t.
  rewrite (mul_same at_empty AE (a_shape t)) by auto. unfold bind. f_equal. apply (arr_ext 0); [apply amap_wf; apply tab_wf|apply tab_wf|reflexivity|].
  intros i Hi. simpl in Hi. rewrite (aget_map 0) by (auto; apply tab_wf). rewrite !aget_tab by exact Hi. ring.
Qed.

(** ** Softmax cross entropy *)
Lemma names_one (n c : nat) : names_axis (length [n; c]) 1 1.
Proof. split; simpl; [lia|left; reflexivity]. Qed.
Lemma one_bounds n i : in_bounds [n] i -> exists r, i = [r] /\ (r < n)%nat.
Proof. intros H. inversion H as [|a b c d E F]. subst. inversion F. subst. eauto. Qed.
Definition xent_row (n c : nat) (x t : arr R) : arr R := tab [n] (fun i => - rsum (seq 0 c) (fun j => rget t [nth 0 i 0%nat; j] * rget (lsmax 1 x) [nth 0 i 0%nat; j])).
Lemma fold_plus0 {I} (f : I -> R) l : fold_left Rplus (map f l) 0 = rsum l f.
Proof. apply fold_plus. Qed.
Lemma softmax_xent_run minv n c x t : has_shape [n; c] x -> has_shape [n; c] t -> prod [n; c] <> 0%nat ->
  softmax_xent minv exp x t = Some (xent_row n c x t, lsmax 1 x).
Proof.
  intros Hx Ht P. apply has_shape_wf in Hx, Ht. destruct Hx as [Sx Wx], Ht as [St Wt]. unfold softmax_xent.
  rewrite (log_softmax_run minv 1 x 1 Wx) by (rewrite Sx; first [exact P | apply names_one]). unfold bind at 1. change (a_shape (lsmax 1 x)) with (a_shape x). rewrite Sx, St. simpl negb. cbv iota.
  unfold zip_bc. change (a_shape (lsmax 1 x)) with (a_shape x). rewrite Sx, St, co_broadcast_self. unfold bind at 1.
  unfold fold_axis. simpl nth_error. cbv iota. unfold bind. f_equal. f_equal. apply (arr_ext 0); [apply amap_wf; apply tab_wf|apply tab_wf|reflexivity|].
  intros i Hi. change (in_bounds [n] i) in Hi. rewrite (aget_map 0) by (auto; apply tab_wf). unfold xent_row. rewrite !aget_tab by exact Hi.
  rewrite fold_plus0. pose proof Hi as Hi'. apply one_bounds in Hi'. destruct Hi' as (r & -> & Hr). simpl nth.
  match goal with |- ?a * -(1) = - ?b => enough (a = b) as -> by ring end. apply sum_ext. intros j Hj. apply in_seq in Hj. simpl insert_at.
  assert (Hij : in_bounds [n; c] [r; j]) by (apply in_bounds_pair; lia). rewrite aget_tab by exact Hij. rewrite bc_idx_self by exact Hij. reflexivity.
Qed.
Lemma derivable_lsmax k x v i : has_shape (a_shape x) x -> has_shape (a_shape x) v -> in_bounds (a_shape x) i -> (k < length (a_shape x))%nat ->
  derivable_pt_lim (fun t => rget (lsmax k (step x v t)) i) 0 (rget v i - rsum (seq 0 (nth k (a_shape x) 0%nat)) (fun l => rget (smax k x) (set_at k l i) * rget v (set_at k l i))).
Proof.
  intros Hx Hv Hi Hk. apply (derivable_ext (fun t => (rget x i + t * rget v i) - lse (step x v t) k i)).
  - intros t. unfold lsmax. rewrite aget_tab by exact Hi. rewrite (step_get (a_shape x)) by auto. reflexivity.
  - apply (derivable_pt_lim_minus (fun t => rget x i + t * rget v i) (fun t => lse (step x v t) k i)); [|apply derivable_lse; auto].
    pose proof (derivable_line (fun y => y) (rget x i) (rget v i) 1 (derivable_pt_lim_id _)) as Q. rewrite Rmult_1_l in Q. exact Q.
Qed.
Lemma softmax_xent_vjp minv n c x t gy : has_shape [n; c] x -> has_shape [n; c] t -> has_shape [n] gy -> prod [n; c] <> 0%nat ->
  vjp (fun x => option_map fst (softmax_xent minv exp x t)) x gy
    (tab [n; c] (fun i => rget gy [nth 0 i 0%nat] * (rget (smax 1 x) i * rsum (seq 0 c) (fun j => rget t [nth 0 i 0%nat; j]) - rget t i))).
Proof.
  intros Hx Ht Hg P. pose proof Hx as Hx'. apply has_shape_wf in Hx'. destruct Hx' as [Sx Wx]. pose proof Hg as Hg'. apply has_shape_wf in Hg'. destruct Hg' as [Sg Wg].
  set (s := smax 1 x).
  apply (vjp_coords _ _ _ _ (fun x' => xent_row n c x' t) (fun i v => - rsum (seq 0 c) (fun j => rget t [nth 0 i 0%nat; j] * (rget v [nth 0 i 0%nat; j] - rsum (seq 0 c) (fun l => rget s [nth 0 i 0%nat; l] * rget v [nth 0 i 0%nat; l]))))); auto.
  - rewrite Sx. apply tab_has_shape.
  - rewrite Sx. intros x' H. split; [rewrite (softmax_xent_run minv n c) by auto; reflexivity|]. rewrite Sg. apply tab_has_shape.
  - intros v i Hv Hi. rewrite Sg in Hi. pose proof Hi as Hi'. apply one_bounds in Hi'. destruct Hi' as (r & -> & Hr). simpl nth.
    apply (derivable_ext (fun u => - rsum (seq 0 c) (fun j => rget t [r; j] * rget (lsmax 1 (step x v u)) [r; j]))).
    + intros u. unfold xent_row. rewrite aget_tab by exact Hi. reflexivity.
    + apply (derivable_pt_lim_opp (fun u => rsum (seq 0 c) (fun j => rget t [r; j] * rget (lsmax 1 (step x v u)) [r; j]))).
      apply (derivable_sum (seq 0 c) (fun j u => rget t [r; j] * rget (lsmax 1 (step x v u)) [r; j]) (fun j => rget t [r; j] * (rget v [r; j] - rsum (seq 0 c) (fun l => rget s [r; l] * rget v [r; l])))).
      intros j Hj. apply in_seq in Hj. apply (derivable_pt_lim_scal (fun u => rget (lsmax 1 (step x v u)) [r; j])).
      pose proof (derivable_lsmax 1 x v [r; j]) as Q. rewrite Sx in Q, Hv. apply Q; [exact Hx|exact Hv|apply in_bounds_pair; lia|simpl; lia].
  - intros v Hv. rewrite Sg, Sx, sum_matrix.
    change (indices [n]) with (flat_map (fun i => map (cons i) [[]]) (seq 0 n)). rewrite (sum_flat_map 0 1 Rplus Rmult Rminus Ropp RT).
    apply sum_ext. intros r Hr. apply in_seq in Hr. simpl. rewrite Rplus_0_r.
    set (V := rsum (seq 0 c) (fun l => rget s [r; l] * rget v [r; l])). set (T := rsum (seq 0 c) (fun j => rget t [r; j])).
    transitivity (rget gy [r] * (T * V - rsum (seq 0 c) (fun j => rget t [r; j] * rget v [r; j]))).
    + rewrite (sum_ext 0 Rplus (seq 0 c) _ (fun j => rget t [r; j] * rget v [r; j] + (- V) * rget t [r; j])) by (intros; ring).
      rewrite (sum_add 0 1 Rplus Rmult Rminus Ropp RT), (sum_scale 0 1 Rplus Rmult Rminus Ropp RT). fold T. ring.
    + symmetry. rewrite (sum_ext 0 Rplus (seq 0 c) _ (fun j => rget gy [r] * (T * (rget s [r; j] * rget v [r; j]) + (-1) * (rget t [r; j] * rget v [r; j])))).
      * rewrite (sum_scale 0 1 Rplus Rmult Rminus Ropp RT), (sum_add 0 1 Rplus Rmult Rminus Ropp RT), !(sum_scale 0 1 Rplus Rmult Rminus Ropp RT). fold V. ring.
      * intros j Hj. apply in_seq in Hj. rewrite aget_tab by (apply in_bounds_pair; lia). simpl nth. fold T. ring.
Qed.
Lemma exp_lsmax k x i : in_bounds (a_shape x) i -> (k < length (a_shape x))%nat -> exp (rget (lsmax k x) i) = rget (smax k x) i.
Proof.
  intros Hi Hk. unfold lsmax, smax. rewrite !aget_tab by exact Hi. unfold Rminus. rewrite exp_plus, exp_Ropp. unfold lse. rewrite exp_ln by (apply line_pos; auto). reflexivity.
Qed.
(** The computed gradient: the incoming gradient lines up with the columns. *)
Lemma softmax_xent_diff at_empty n c x t : at_empty_ok 0 at_empty -> has_shape [n; c] x -> has_shape [n; c] t ->
  sub_forward 0 Rminus at_empty (amap exp (lsmax 1 x)) t = Some (tab [n; c] (fun i => rget (smax 1 x) i - rget t i)).
Proof.
  intros AE Hx Ht. apply has_shape_wf in Hx, Ht. destruct Hx as [Sx Wx], Ht as [St Wt].
  rewrite (sub_same at_empty AE [n; c]) by (auto; first [apply amap_wf; apply tab_wf | simpl; exact Sx]). f_equal. apply tab_ext. intros i Hi.
  rewrite <- Sx in Hi. rewrite (aget_map 0) by (first [apply tab_wf | exact Hi]). rewrite exp_lsmax by first [exact Hi | rewrite Sx; simpl; lia]. reflexivity.
Qed.
Lemma softmax_xent_grad_one at_empty c x t y gy : at_empty_ok 0 at_empty -> has_shape [1%nat; c] x -> has_shape [1%nat; c] t -> has_shape [1%nat] gy -> (c <> 0)%nat ->
  softmax_xent_grad_x exp at_empty t y (lsmax 1 x) gy = Some (tab [1%nat; c] (fun i => (rget (smax 1 x) i - rget t i) * rget gy [0%nat])).
Proof.
  intros AE Hx Ht Hg C. unfold softmax_xent_grad_x. rewrite (softmax_xent_diff at_empty 1 c) by auto. unfold bind.
  apply has_shape_wf in Hg. destruct Hg as [Sg Wg]. set (d := tab _ _).
  destruct (bin_forward_ok 0 at_empty AE Rmult d gy [1%nat; c] Rmult_comm) as (z & E & Sz & Q).
  - apply tab_wf.
  - exact Wg.
  - rewrite Sg. unfold d. simpl. unfold co_broadcast. simpl. destruct (Nat.eqb_spec c 1) as [->|]; reflexivity.
  - simpl. lia.
  - unfold mul_forward. rewrite E. f_equal. apply (pointwise_tab Rmult _ _ z [1%nat; c] _ Sz Q). intros i Hi. rewrite Sg. change (a_shape d) with [1%nat; c]. rewrite bc_idx_self by exact Hi.
    unfold d. rewrite aget_tab by exact Hi. f_equal. f_equal. apply pair_bounds in Hi. destruct Hi as (r & q & -> & _ & _). reflexivity.
Qed.
Lemma softmax_xent_grad_square at_empty n x t y gy : at_empty_ok 0 at_empty -> has_shape [n; n] x -> has_shape [n; n] t -> has_shape [n] gy -> (n <> 0)%nat ->
  softmax_xent_grad_x exp at_empty t y (lsmax 1 x) gy = Some (tab [n; n] (fun i => (rget (smax 1 x) i - rget t i) * rget gy [nth 1 i 0%nat])).
Proof.
  intros AE Hx Ht Hg C. unfold softmax_xent_grad_x. rewrite (softmax_xent_diff at_empty n n) by auto. unfold bind.
  apply has_shape_wf in Hg. destruct Hg as [Sg Wg]. set (d := tab _ _).
  destruct (bin_forward_ok 0 at_empty AE Rmult d gy [n; n] Rmult_comm) as (z & E & Sz & Q).
  - apply tab_wf.
  - exact Wg.
  - rewrite Sg. apply (co_broadcast_tl n [n]).
  - simpl. lia.
  - unfold mul_forward. rewrite E. f_equal. apply (pointwise_tab Rmult _ _ z [n; n] _ Sz Q). intros i Hi. rewrite Sg. change (a_shape d) with [n; n]. rewrite bc_idx_self by exact Hi.
    unfold d. rewrite aget_tab by exact Hi. f_equal. f_equal. apply pair_bounds in Hi. destruct Hi as (r & q & -> & Hr & Hq). simpl nth.
    apply (bc_idx_tl [n] r [q]). constructor; [exact Hq|constructor].
Qed.

(** ** Sparse labels *)
Lemma to_usize_INR l : to_usize (INR l) = Some l.
Proof. unfold to_usize. pose proof (pos_INR l). destruct (Rlt_dec (-1) (INR l)); [|lra]. rewrite Int_part_INR, Nat2Z.id. reflexivity. Qed.
Lemma all_some_map {I X} (f : I -> option X) g l : (forall i, In i l -> f i = Some (g i)) -> all_some (map f l) = Some (map g l).
Proof.
  induction l as [|a l IH]; intros H; simpl; [reflexivity|]. rewrite (H a) by (simpl; auto). rewrite IH by (intros i Hi; apply H; simpl; auto). reflexivity.
Qed.
Lemma label_INR t c i l : nth_error (a_data t) i = Some (INR l) -> (l < c)%nat -> label_at t c i = Some l.
Proof. intros H L. unfold label_at. rewrite H. simpl. rewrite to_usize_INR. simpl. apply Nat.ltb_lt in L. rewrite L. reflexivity. Qed.
Definition label_shape (n : nat) (t : arr R) : Prop := has_shape [n] t \/ has_shape [n; 1%nat] t.
Definition xent_pick (n : nat) (x : arr R) (lab : nat -> nat) : arr R := tab [n; 1%nat] (fun i => - rget (lsmax 1 x) [nth 0 i 0%nat; lab (nth 0 i 0%nat)]).
Lemma sparse_xent_run minv n c x t lab : has_shape [n; c] x -> label_shape n t -> prod [n; c] <> 0%nat ->
  (forall i, (i < n)%nat -> nth_error (a_data t) i = Some (INR (lab i)) /\ (lab i < c)%nat) ->
  sparse_xent minv exp x t = Some (xent_pick n x lab, lsmax 1 x).
Proof.
  intros Hx Ht P L. apply has_shape_wf in Hx. destruct Hx as [Sx Wx]. unfold sparse_xent.
  rewrite (log_softmax_run minv 1 x 1 Wx) by (rewrite Sx; first [exact P | apply names_one]). unfold bind at 1. change (a_shape (lsmax 1 x)) with (a_shape x). rewrite Sx.
  assert (E : match a_shape t with [_] => true | [_; m] => (m =? 1)%nat | _ => false end = true) by (destruct Ht as [[-> _]|[-> _]]; reflexivity).
  cbv zeta. rewrite E. rewrite (all_some_map _ (fun i => - rget (lsmax 1 x) [i; lab i])).
  2:{ intros i Hi. apply in_seq in Hi. destruct (L i) as [Q1 Q2]; [lia|]. rewrite (label_INR t c i (lab i) Q1 Q2). reflexivity. }
  unfold bind. unfold into_shape. cbn [a_shape a_data]. replace (prod [n] =? prod [n; 1%nat])%nat with true by (symmetry; apply Nat.eqb_eq; simpl; lia).
  f_equal. f_equal. unfold xent_pick, tab. f_equal. simpl indices. clear. induction (seq 0 n) as [|a l IH]; simpl; [reflexivity|]. f_equal. exact IH.
Qed.
Lemma indices_col n : indices [n; 1%nat] = map (fun r => [r; 0%nat]) (seq 0 n).
Proof. simpl. induction (seq 0 n) as [|a l IH]; simpl; [reflexivity|f_equal; exact IH]. Qed.
Lemma sparse_xent_vjp minv n c x t lab gy : has_shape [n; c] x -> label_shape n t -> prod [n; c] <> 0%nat ->
  (forall i, (i < n)%nat -> nth_error (a_data t) i = Some (INR (lab i)) /\ (lab i < c)%nat) -> has_shape [n; 1%nat] gy ->
  vjp (fun x => option_map fst (sparse_xent minv exp x t)) x gy
    (tab [n; c] (fun i => (rget (smax 1 x) i - (if (lab (nth 0 i 0) =? nth 1 i 0)%nat then 1 else 0)) * rget gy [nth 0 i 0%nat; 0%nat])).
Proof.
  intros Hx Ht P L Hg. pose proof Hx as Hx'. apply has_shape_wf in Hx'. destruct Hx' as [Sx Wx]. pose proof Hg as Hg'. apply has_shape_wf in Hg'. destruct Hg' as [Sg Wg].
  set (s := smax 1 x).
  apply (vjp_coords _ _ _ _ (fun x' => xent_pick n x' lab) (fun i v => - (rget v [nth 0 i 0%nat; lab (nth 0 i 0%nat)] - rsum (seq 0 c) (fun l => rget s [nth 0 i 0%nat; l] * rget v [nth 0 i 0%nat; l])))); auto.
  - rewrite Sx. apply tab_has_shape.
  - rewrite Sx. intros x' H. split; [rewrite (sparse_xent_run minv n c x' t lab) by auto; reflexivity|]. rewrite Sg. apply tab_has_shape.
  - intros v i Hv Hi. rewrite Sg in Hi. pose proof Hi as Hi'. apply pair_bounds in Hi'. destruct Hi' as (r & q & -> & Hr & Hq). simpl nth.
    apply (derivable_ext (fun u => - rget (lsmax 1 (step x v u)) [r; lab r])).
    + intros u. unfold xent_pick. rewrite aget_tab by exact Hi. reflexivity.
    + apply (derivable_pt_lim_opp (fun u => rget (lsmax 1 (step x v u)) [r; lab r])).
      pose proof (derivable_lsmax 1 x v [r; lab r]) as Q. rewrite Sx in Q, Hv. apply Q; [exact Hx|exact Hv|apply in_bounds_pair; split; [exact Hr|apply L; exact Hr]|simpl; lia].
  - intros v Hv. rewrite Sg, Sx, (sum_matrix n c), indices_col, sum_map. apply sum_ext. intros r Hr. apply in_seq in Hr. simpl nth.
    destruct (L r) as [_ Lr]; [lia|].
    symmetry. rewrite (sum_ext 0 Rplus (seq 0 c) _ (fun j => rget gy [r; 0%nat] * (rget s [r; j] * rget v [r; j] + (-1) * (if (lab r =? j)%nat then rget v [r; j] else 0)))).
    + rewrite (sum_scale 0 1 Rplus Rmult Rminus Ropp RT), (sum_add 0 1 Rplus Rmult Rminus Ropp RT), (sum_scale 0 1 Rplus Rmult Rminus Ropp RT).
      assert (E : rsum (seq 0 c) (fun j => if (lab r =? j)%nat then rget v [r; j] else 0) = rget v [r; lab r]).
      { clear - Lr. set (f := fun j => rget v [r; j]). change (rsum (seq 0 c) (fun j => if (lab r =? j)%nat then f j else 0) = f (lab r)). clearbody f. assert (G : forall m b, (b <= lab r < b + m)%nat -> rsum (seq b m) (fun j => if (lab r =? j)%nat then f j else 0) = f (lab r)).
        - assert (Z : forall m b, (lab r < b)%nat -> rsum (seq b m) (fun j => if (lab r =? j)%nat then f j else 0) = 0).
          { induction m as [|m IH]; intros b Hb; simpl; [reflexivity|]. destruct (Nat.eqb_spec (lab r) b); [lia|]. rewrite IH by lia. ring. }
          induction m as [|m IH]; intros b Hb; [lia|]. simpl. destruct (Nat.eqb_spec (lab r) b) as [<-|N]; [rewrite Z by lia; ring|]. rewrite IH by lia. ring.
        - apply G. lia. }
      rewrite E. ring.
    + intros j Hj. apply in_seq in Hj. rewrite aget_tab by (apply in_bounds_pair; lia). simpl nth. destruct (lab r =? j)%nat; ring.
Qed.
Lemma sparse_xent_grad_run n c x t lab gy : has_shape [n; c] x -> label_shape n t -> 
  (forall i, (i < n)%nat -> nth_error (a_data t) i = Some (INR (lab i)) /\ (lab i < c)%nat) -> has_shape [n; 1%nat] gy ->
  sparse_xent_grad_x exp (lsmax 1 x) t gy =
    Some (tab [n; c] (fun i => (rget (smax 1 x) i - (if (lab (nth 0 i 0) =? nth 1 i 0)%nat then 1 else 0)) * rget gy [nth 0 i 0%nat; 0%nat])).
Proof.
  intros Hx Ht L Hg. apply has_shape_wf in Hx, Hg. destruct Hx as [Sx Wx], Hg as [Sg Wg]. unfold sparse_xent_grad_x. cbv zeta.
  change (a_shape (amap exp (lsmax 1 x))) with (a_shape x). rewrite Sx.
  assert (Lt : length (a_data t) = n) by (destruct Ht as [[_ ->]|[_ ->]]; simpl; lia). rewrite Lt, Nat.min_id.
  rewrite (all_some_map _ lab). 2:{ intros i Hi. apply in_seq in Hi. destruct (L i) as [Q1 Q2]; [lia|]. exact (label_INR t c i (lab i) Q1 Q2). }
  unfold bind. unfold zip_mut. cbn [tab a_shape]. rewrite Sg.
  assert (C : can_broadcast [n; 1%nat] [n; c] = true). { pose proof (can_broadcast_set 1 [n; c]) as Q. exact Q. }
  rewrite C. f_equal. apply tab_ext. intros i Hi. rewrite aget_tab by exact Hi.
  pose proof (bc_idx_set 1 [n; c] i Hi) as B. simpl set_at in B. pose proof Hi as Hi'. apply pair_bounds in Hi'. destruct Hi' as (r & q & -> & Hr & Hq). simpl nth. simpl in B. rewrite B.
  assert (Hi' : in_bounds (a_shape x) [r; q]) by (rewrite Sx; exact Hi).
  rewrite (aget_map 0) by (first [apply tab_wf | exact Hi']). rewrite exp_lsmax by first [exact Hi' | rewrite Sx; simpl; lia].
  rewrite nth_error_map. rewrite (nth_error_nth' (seq 0 n) 0%nat) by (rewrite seq_length; exact Hr). rewrite seq_nth by exact Hr. simpl. reflexivity.
Qed.
Lemma all_some_none {X} (l : list (option X)) : In None l -> all_some l = None.
Proof. induction l as [|[a|] l IH]; simpl; intros H; [contradiction| |reflexivity]. destruct H as [H|H]; [discriminate|]. rewrite IH by exact H. reflexivity. Qed.

(** The gradient for the labels. *)
Lemma softmax_xent_vjp_t minv n c x t gy : has_shape [n; c] x -> has_shape [n; c] t -> has_shape [n] gy -> prod [n; c] <> 0%nat ->
  vjp (fun t => option_map fst (softmax_xent minv exp x t)) t gy (tab [n; c] (fun i => - (rget gy [nth 0 i 0%nat] * rget (lsmax 1 x) i))).
Proof.
  intros Hx Ht Hg P. pose proof Ht as Ht'. apply has_shape_wf in Ht'. destruct Ht' as [St Wt]. pose proof Hg as Hg'. apply has_shape_wf in Hg'. destruct Hg' as [Sg Wg].
  apply (vjp_coords _ _ _ _ (fun t' => xent_row n c x t') (fun i v => - rsum (seq 0 c) (fun j => rget v [nth 0 i 0%nat; j] * rget (lsmax 1 x) [nth 0 i 0%nat; j]))); auto.
  - rewrite St. apply tab_has_shape.
  - rewrite St. intros t' H. split; [rewrite (softmax_xent_run minv n c) by auto; reflexivity|]. rewrite Sg. apply tab_has_shape.
  - intros v i Hv Hi. rewrite Sg in Hi. pose proof Hi as Hi'. apply one_bounds in Hi'. destruct Hi' as (r & -> & Hr). simpl nth.
    apply (derivable_ext (fun u => - rsum (seq 0 c) (fun j => (rget t [r; j] + u * rget v [r; j]) * rget (lsmax 1 x) [r; j]))).
    + intros u. unfold xent_row. rewrite aget_tab by exact Hi. simpl nth. f_equal. apply sum_ext. intros j Hj. apply in_seq in Hj.
      rewrite (step_get (a_shape t)); [reflexivity|rewrite St; exact Ht|exact Hv|rewrite St; apply in_bounds_pair; lia].
    + apply (derivable_pt_lim_opp (fun u => rsum (seq 0 c) (fun j => (rget t [r; j] + u * rget v [r; j]) * rget (lsmax 1 x) [r; j]))).
      apply (derivable_sum (seq 0 c) (fun j u => (rget t [r; j] + u * rget v [r; j]) * rget (lsmax 1 x) [r; j]) (fun j => rget v [r; j] * rget (lsmax 1 x) [r; j])).
      intros j Hj. set (l := rget (lsmax 1 x) [r; j]).
      assert (D : derivable_pt_lim (fun a => a * l) (rget t [r; j]) l).
      { pose proof (derivable_pt_lim_mult id (fun _ => l) (rget t [r; j]) 1 0 (derivable_pt_lim_id _) (derivable_pt_lim_const _ _)) as Q. rewrite Rmult_1_l, Rmult_0_r, Rplus_0_r in Q. exact Q. }
      pose proof (derivable_line (fun a => a * l) (rget t [r; j]) (rget v [r; j]) l D) as Q. rewrite Rmult_comm in Q. exact Q.
  - intros v Hv. rewrite Sg, St, (sum_matrix n c).
    change (indices [n]) with (flat_map (fun i => map (cons i) [[]]) (seq 0 n)). rewrite (sum_flat_map 0 1 Rplus Rmult Rminus Ropp RT).
    apply sum_ext. intros r Hr. apply in_seq in Hr. simpl. rewrite Rplus_0_r.
    symmetry. rewrite (sum_ext 0 Rplus (seq 0 c) _ (fun j => (- rget gy [r]) * (rget v [r; j] * rget (lsmax 1 x) [r; j]))).
    + rewrite (sum_scale 0 1 Rplus Rmult Rminus Ropp RT). ring.
    + intros j Hj. apply in_seq in Hj. rewrite aget_tab by (apply in_bounds_pair; lia). simpl nth. ring.
Qed.
Lemma co_broadcast_row c : co_broadcast [1%nat; c] [1%nat] = Some [1%nat; c].
Proof. unfold co_broadcast. simpl. destruct (Nat.eqb_spec c 1) as [->|]; reflexivity. Qed.
Lemma co_broadcast_row' c : co_broadcast [1%nat] [1%nat; c] = Some [1%nat; c].
Proof. unfold co_broadcast. simpl. destruct c as [|[|c]]; reflexivity. Qed.
Lemma softmax_xent_grad_t_one at_empty c x t y gy : at_empty_ok 0 at_empty -> has_shape [1%nat; c] x -> has_shape [1%nat] gy -> has_shape [1%nat] y -> (c <> 0)%nat ->
  softmax_xent_grad_t exp at_empty t y (lsmax 1 x) gy =
    Some (tab [1%nat; c] (fun i => rget gy [0%nat] * (rsum (seq 0 c) (fun j => rget (smax 1 x) [0%nat; j] * rget (lsmax 1 x) [0%nat; j]) - rget (lsmax 1 x) i) * rget y [0%nat])).
Proof.
  intros AE Hx Hg Hy C. apply has_shape_wf in Hx, Hg, Hy. destruct Hx as [Sx Wx], Hg as [Sg Wg], Hy as [Sy Wy]. unfold softmax_xent_grad_t.
  rewrite (mul_same at_empty AE [1%nat; c]) by first [exact Sx | apply amap_wf; apply tab_wf | apply tab_wf | simpl; lia]. unfold bind at 1.
  set (p := tab [1%nat; c] _).
  destruct (reduce_line (-1) p 1) as (s & E & Ss & Ws & Gs); [simpl; congruence|split; simpl; [lia|right; reflexivity]|].
  rewrite E. unfold bind at 1. simpl in Ss.
  assert (Gs' : rget s [0%nat; 0%nat] = rsum (seq 0 c) (fun j => rget (smax 1 x) [0%nat; j] * rget (lsmax 1 x) [0%nat; j])).
  { etransitivity; [apply (Gs [0%nat; 0%nat]); apply in_bounds_pair; lia|]. simpl nth. apply sum_ext. intros j Hj. apply in_seq in Hj. simpl set_at.
    assert (Hi : in_bounds [1%nat; c] [0%nat; j]) by (apply in_bounds_pair; lia). unfold p. rewrite aget_tab by exact Hi.
    rewrite <- Sx in Hi. rewrite (aget_map 0) by (first [apply tab_wf | exact Hi]). rewrite exp_lsmax by first [exact Hi | rewrite Sx; simpl; lia]. reflexivity. }
  destruct (sub_forward_ok 0 Rminus at_empty AE s (lsmax 1 x) [1%nat; c]) as (d & Ed & Sd & Qd).
  { exact Ws. } { apply tab_wf. } { rewrite Ss. change (a_shape (lsmax 1 x)) with (a_shape x). rewrite Sx. unfold co_broadcast. simpl. destruct c as [|[|c]]; reflexivity. }
  rewrite Ed. unfold bind at 1. rewrite (pointwise_tab Rminus _ _ d [1%nat; c] (fun i => rsum (seq 0 c) (fun j => rget (smax 1 x) [0%nat; j] * rget (lsmax 1 x) [0%nat; j]) - rget (lsmax 1 x) i) Sd Qd).
  2:{ intros i Hi. change (a_shape (lsmax 1 x)) with (a_shape x). rewrite Sx, Ss, (bc_idx_self [1%nat; c] i Hi). f_equal. rewrite <- Gs'. f_equal. apply pair_bounds in Hi. destruct Hi as (r & q & -> & _ & _). reflexivity. }
  set (d' := tab [1%nat; c] _).
  destruct (bin_forward_ok 0 at_empty AE Rmult gy d' [1%nat; c] Rmult_comm) as (e & Ee & Se & Qe).
  { exact Wg. } { apply tab_wf. } { rewrite Sg. apply co_broadcast_row'. } { simpl. lia. }
  unfold mul_forward. rewrite Ee. unfold bind at 1. rewrite (pointwise_tab Rmult _ _ e [1%nat; c] (fun i => rget gy [0%nat] * rget d' i) Se Qe).
  2:{ intros i Hi. rewrite Sg. change (a_shape d') with [1%nat; c]. rewrite (bc_idx_self [1%nat; c] i Hi). f_equal. f_equal. apply pair_bounds in Hi. destruct Hi as (r & q & -> & _ & _). reflexivity. }
  set (e' := tab [1%nat; c] (fun i => rget gy [0%nat] * rget d' i)).
  destruct (bin_forward_ok 0 at_empty AE Rmult e' y [1%nat; c] Rmult_comm) as (z & Ez & Sz & Qz).
  { apply tab_wf. } { exact Wy. } { rewrite Sy. apply co_broadcast_row. } { simpl. lia. }
  rewrite Ez. f_equal. apply (pointwise_tab Rmult _ _ z [1%nat; c] _ Sz Qz). intros i Hi. rewrite Sy. change (a_shape e') with [1%nat; c]. rewrite (bc_idx_self [1%nat; c] i Hi).
  unfold e', d'. rewrite !aget_tab by exact Hi. f_equal. f_equal. apply pair_bounds in Hi. destruct Hi as (r & q & -> & _ & _). reflexivity.
Qed.
