(** C36, C49, C50: softmax, log-sum-exp and the cross entropies. *)
From Coq Require Import List Arith ZArith Bool Lia Reals Lra RealField.
Import ListNotations.
From Verif Require Import Eval_Proofs Array_Model Array_Proofs Array_Sum Arith_Model Arith_Proofs Broadcast_Spec Vjp_Spec Vjp_Proofs Arith_Final P_Arith Reduce_Model Shape_Spec Dot_Spec Dot_Proofs Softmax_Model Softmax_Spec Softmax_Proofs Softmax_Proofs2 Softmax_Proofs3 Softmax_Xent.
Local Open Scope R_scope.
Notation scalar_index at_empty := (index_empty_ok 0 at_empty).

(** ** C36: softmax and log_softmax *)
Theorem C36_softmax : forall minv axis k x, has_shape (a_shape x) x -> names_axis (length (a_shape x)) axis k ->
  exists y, softmax minv exp axis x = Some y /\ softmax_of k x y.
Proof. intros minv axis k x Hx N. apply has_shape_wf in Hx. exists (smax k x). split; [apply softmax_smax; [apply Hx|exact N]|apply smax_of]. Qed.
Print Assumptions C36_softmax.
Theorem C36_distribution : forall minv axis k x y, has_shape (a_shape x) x -> names_axis (length (a_shape x)) axis k ->
  softmax minv exp axis x = Some y ->
  forall i, in_bounds (a_shape x) i -> 0 < aget 0 y i <= 1 /\ line_sum k y (fun a => a) i = 1.
Proof.
  intros minv axis k x y Hx N E i Hi. apply has_shape_wf in Hx. pose proof N as [Hk _]. rewrite (softmax_smax minv axis x k) in E by (auto; apply Hx). injection E as <-.
  assert (Pos : forall j, in_bounds (a_shape x) j -> 0 < rget (smax k x) j).
  { intros j Hj. unfold smax. rewrite aget_tab by exact Hj. apply Rmult_lt_0_compat; [apply exp_pos|]. apply Rinv_0_lt_compat. apply line_pos; assumption. }
  assert (T : line_sum k (smax k x) (fun a => a) i = 1).
  { rewrite line_sum_rsum. change (a_shape (smax k x)) with (a_shape x).
    pose proof (line_pos k x i Hi Hk) as P.
    rewrite (sum_ext 0 Rplus (seq 0 (nth k (a_shape x) 0%nat)) _ (fun l => / line_sum k x exp i * exp (rget x (set_at k l i)))).
    - rewrite (sum_scale 0 1 Rplus Rmult Rminus Ropp RT), line_sum_rsum. rewrite line_sum_rsum in P. field. lra.
    - intros l Hl. apply in_seq in Hl. unfold smax. rewrite aget_tab by (apply set_in; [exact Hi|lia]). rewrite line_sum_same. unfold Rdiv. ring. }
  split; [|exact T]. split; [apply Pos; exact Hi|].
  rewrite line_sum_rsum in T. change (a_shape (smax k x)) with (a_shape x) in T.
  assert (Hn : (nth k i 0 < nth k (a_shape x) 0)%nat) by (apply in_bounds_nth; assumption).
  set (f := fun l => rget (smax k x) (set_at k l i)) in T.
  assert (F : forall l, (l < nth k (a_shape x) 0)%nat -> 0 < f l) by (intros l Hl; apply Pos; apply set_in; assumption).
  assert (G : forall m b, (forall l, (b <= l < b + m)%nat -> 0 < f l) -> 0 <= rsum (seq b m) f /\ forall l, (b <= l < b + m)%nat -> f l <= rsum (seq b m) f).
  { induction m as [|m IH]; intros b Hb; simpl; [split; [lra|intros; lia]|]. destruct (IH (S b)) as [I1 I2]; [intros l Hl; apply Hb; lia|].
    pose proof (Hb b ltac:(lia)) as B. split; [lra|]. intros l Hl. destruct (Nat.eq_dec l b) as [->|Nl]; [lra|]. specialize (I2 l ltac:(lia)). lra. }
  destruct (G (nth k (a_shape x) 0%nat) 0%nat) as [_ G2]; [intros l Hl; apply F; lia|].
  specialize (G2 (nth k i 0%nat) ltac:(lia)). unfold f at 1 in G2. rewrite set_nth_self in G2. rewrite T in G2. exact G2.
Qed.
Print Assumptions C36_distribution.
(** Adding to every element an amount that is the same along each line changes nothing. *)
Theorem C36_shift_invariant : forall minv axis k x x' (c : list nat -> R), has_shape (a_shape x) x -> has_shape (a_shape x) x' ->
  names_axis (length (a_shape x)) axis k ->
  (forall i l, in_bounds (a_shape x) i -> c (at_pos k l i) = c i) ->
  (forall i, in_bounds (a_shape x) i -> aget 0 x' i = aget 0 x i + c i) ->
  softmax minv exp axis x' = softmax minv exp axis x.
Proof.
  intros minv axis k x x' c Hx Hx' N Hc E. apply has_shape_wf in Hx, Hx'. destruct Hx as [_ Wx], Hx' as [Sx' Wx'].
  rewrite (softmax_smax minv axis x k Wx N), (softmax_smax minv axis x' k Wx') by (rewrite Sx'; exact N). f_equal. unfold smax. rewrite Sx'. apply tab_ext. intros i Hi.
  pose proof N as [Hk _]. pose proof (line_pos k x i Hi Hk) as P.
  assert (L : line_sum k x' exp i = exp (c i) * line_sum k x exp i).
  { rewrite !line_sum_rsum, Sx', <- (sum_scale 0 1 Rplus Rmult Rminus Ropp RT). apply sum_ext. intros l Hl. apply in_seq in Hl.
    rewrite E by (apply set_in; [exact Hi|lia]). rewrite <- at_pos_set, Hc by exact Hi. rewrite exp_plus. ring. }
  rewrite L, E, exp_plus by exact Hi. field. pose proof (exp_pos (c i)). lra.
Qed.
Print Assumptions C36_shift_invariant.
(** Stability: the exponential is only applied to numbers that are not positive
    (so it cannot overflow); whatever it would be on positive arguments does not
    matter. *)
Theorem C36_no_overflow : forall minv ex ex' axis k x, has_shape (a_shape x) x -> names_axis (length (a_shape x)) axis k ->
  (forall a, a <= 0 -> ex a = ex' a) -> softmax minv ex axis x = softmax minv ex' axis x.
Proof.
  intros minv ex ex' axis k x Hx N E. apply has_shape_wf in Hx. destruct Hx as [_ Wx]. rewrite !(softmax_run minv _ axis x k Wx N). f_equal. apply tab_ext. intros i Hi.
  pose proof N as [Hk _].
  assert (M : forall l, (l < nth k (a_shape x) 0)%nat -> rget x (set_at k l i) - line_max minv k x i <= 0).
  { intros l Hl. enough (rget x (set_at k l i) <= line_max minv k x i) by lra. apply fold_max_ge. left. apply in_map_iff. exists l. split; [reflexivity|]. apply in_seq. lia. }
  f_equal.
  - rewrite <- (set_nth_self k i) at 1 3. rewrite E; [reflexivity|]. apply M. apply in_bounds_nth; assumption.
  - apply sum_ext. intros l Hl. apply in_seq in Hl. apply E. apply M. lia.
Qed.
Print Assumptions C36_no_overflow.
Theorem C36_gradient : forall minv at_empty axis k x gy, scalar_index at_empty ->
  prod (a_shape x) <> 0%nat -> has_shape (a_shape x) x -> has_shape (a_shape x) gy -> names_axis (length (a_shape x)) axis k ->
  exists y gx, softmax minv exp axis x = Some y /\ softmax_grad at_empty axis y gy = Some gx /\ vjp (softmax minv exp axis) x gy gx.
Proof.
  intros minv at_empty axis k x gy AE P Hx Hg N. apply index_empty_at in AE. pose proof Hx as Hx'. apply has_shape_wf in Hx'.
  eexists (smax k x), _. split; [apply softmax_smax; [apply Hx'|exact N]|]. split; [apply (softmax_grad_run at_empty axis k); auto; try apply tab_wf; change (a_shape (smax k x)) with (a_shape x); assumption|].
  change (a_shape (smax k x)) with (a_shape x).
  apply softmax_vjp; assumption.
Qed.
Print Assumptions C36_gradient.
Theorem C36_log_softmax : forall minv axis k x, has_shape (a_shape x) x -> prod (a_shape x) <> 0%nat -> names_axis (length (a_shape x)) axis k ->
  exists y, log_softmax minv exp axis x = Some y /\ log_softmax_of k x y.
Proof.
  intros minv axis k x Hx P N. apply has_shape_wf in Hx. exists (lsmax k x). split; [apply log_softmax_run; [apply Hx|exact P|exact N]|].
  split; [reflexivity|]. split; [apply (proj2 (tab_has_shape (a_shape x) _))|]. intros i Hi. unfold lsmax. rewrite aget_tab by exact Hi. reflexivity.
Qed.
Print Assumptions C36_log_softmax.
(** Its gradient is right for axis 1 ... *)
Theorem C36_log_softmax_gradient : forall minv at_empty axis x gy, scalar_index at_empty ->
  prod (a_shape x) <> 0%nat -> has_shape (a_shape x) x -> has_shape (a_shape x) gy -> names_axis (length (a_shape x)) axis 1 ->
  exists y gx, log_softmax minv exp axis x = Some y /\ log_softmax_grad exp at_empty axis y gy = Some gx /\ vjp (log_softmax minv exp axis) x gy gx.
Proof.
  intros minv at_empty axis x gy AE P Hx Hg N. apply index_empty_at in AE. pose proof Hx as Hx'. apply has_shape_wf in Hx'. pose proof N as [Hk _].
  eexists (lsmax 1 x), _. split; [apply log_softmax_run; [apply Hx'|exact P|exact N]|]. split; [apply (log_softmax_grad_run at_empty axis 1); auto|].
  apply log_softmax_vjp; assumption.
Qed.
Print Assumptions C36_log_softmax_gradient.
(** ... and for no other axis: a vector's gradient panics ... *)
Theorem C36_log_softmax_vector_panics : forall ex at_empty axis n y gy, a_shape gy = [n] -> n <> 0%nat -> log_softmax_grad ex at_empty axis y gy = None.
Proof.
  intros ex at_empty axis n y gy S N. unfold log_softmax_grad, reduce, preprocess_axes. rewrite S. unfold normalize_axes. simpl.
  unfold compute_reduce. rewrite S. destruct n as [|n]; [congruence|]. simpl. unfold fold_axis. rewrite S. reflexivity.
Qed.
Print Assumptions C36_log_softmax_vector_panics.
(** ... and for other axes the sum is taken over the wrong axis. *)
Theorem C36_log_softmax_other_axis_refuted : forall minv at_empty, scalar_index at_empty ->
  exists x gy y gx, has_shape [2; 2]%nat x /\ has_shape [2; 2]%nat gy /\ log_softmax minv exp 0 x = Some y /\
    log_softmax_grad exp at_empty 0 y gy = Some gx /\ ~ vjp (log_softmax minv exp 0) x gy gx.
Proof.
  intros minv at_empty AE. apply index_empty_at in AE. set (x := Arr [2; 2]%nat [0; 0; 0; 0]). set (gy := Arr [2; 2]%nat [1; 0; 0; 0]).
  assert (Hx : has_shape (a_shape x) x) by (split; reflexivity). assert (Hg : has_shape (a_shape x) gy) by (split; reflexivity).
  assert (P : prod (a_shape x) <> 0%nat) by (simpl; lia). assert (N : names_axis (length (a_shape x)) 0 0) by (split; simpl; [lia|left; reflexivity]).
  eexists x, gy, (lsmax 0 x), _. split; [exact Hx|]. split; [exact Hg|]. split; [apply log_softmax_run; [apply Hx|exact P|exact N]|].
  split; [apply (log_softmax_grad_run at_empty 0 0); auto; simpl; lia|].
  intros V. pose proof (vjp_unique _ _ _ _ _ V (log_softmax_vjp minv 0 0 x gy P Hx Hg N)) as Q.
  apply (f_equal (fun a => rget a [0; 1]%nat)) in Q. cbv beta in Q.
  assert (Hi : in_bounds (a_shape x) [0; 1]%nat) by (repeat constructor).
  rewrite !aget_tab in Q by exact Hi.
  assert (S : 0 < rget (smax 0 x) [0; 1]%nat).
  { unfold smax. rewrite aget_tab by exact Hi. apply Rmult_lt_0_compat; [apply exp_pos|]. apply Rinv_0_lt_compat. apply line_pos; [exact Hi|simpl; lia]. }
  set (s := rget (smax 0 x) [0; 1]%nat) in *. cbv -[Rplus Rmult Rminus IZR s Rlt] in Q. lra.
Qed.
Print Assumptions C36_log_softmax_other_axis_refuted.
Example C36_hypotheses_met :
  let x := Arr [2; 3]%nat [0; 1; 2; 3; 4; 5] in
  has_shape (a_shape x) x /\ prod (a_shape x) <> 0%nat /\ names_axis (length (a_shape x)) (-1) 1 /\ names_axis (length (a_shape x)) 1 1 /\
  (exists at_empty, scalar_index at_empty).
Proof.
  split; [split; reflexivity|]. split; [simpl; lia|]. split; [split; simpl; [lia|right; reflexivity]|]. split; [split; simpl; [lia|left; reflexivity]|].
  exists (fun a => Some (hd 0 (a_data a))). split; intros a _ _; auto.
Qed.

(** ** C49: reduce_logsumexp *)
Lemma lse_of_keep k x : (k < length (a_shape x))%nat -> logsumexp_of true k x (tab (set_at k 1%nat (a_shape x)) (fun j => lse x k j)).
Proof.
  intros Hk. assert (F : forall (c : nat) l, (k < length l)%nat -> firstn k l ++ c :: skipn (S k) l = set_at k c l).
  { intros c l. revert k Hk. intros k _. revert l. induction k as [|k IH]; intros [|a l] H; simpl in *; try lia; [reflexivity|]. f_equal. apply IH. lia. }
  unfold logsumexp_of. cbv beta iota zeta. rewrite F by exact Hk. split; [reflexivity|]. split; [apply (proj2 (tab_has_shape _ _))|].
  intros i Hi. rewrite F by (rewrite (in_bounds_length _ _ Hi); exact Hk). rewrite aget_tab by (apply in_bounds_set; [exact Hi|lia]). unfold lse. rewrite line_sum_same. reflexivity.
Qed.
(** Keeping the axis. *)
Theorem C49_value : forall minv axis k x, has_shape (a_shape x) x -> prod (a_shape x) <> 0%nat -> names_axis (length (a_shape x)) axis k ->
  exists y, logsumexp minv exp axis true x = Some y /\ logsumexp_of true k x y.
Proof.
  intros minv axis k x Hx P N. apply has_shape_wf in Hx. pose proof N as [Hk _].
  eexists. split; [apply (logsumexp_run minv axis x k); [apply Hx|exact P|exact N]|apply lse_of_keep; exact Hk].
Qed.
Print Assumptions C49_value.
Theorem C49_gradient : forall minv at_empty axis k x gy, scalar_index at_empty -> prod (a_shape x) <> 0%nat -> has_shape (a_shape x) x ->
  has_shape (firstn k (a_shape x) ++ 1%nat :: skipn (S k) (a_shape x)) gy -> names_axis (length (a_shape x)) axis k ->
  exists gx, logsumexp_grad minv exp at_empty axis x gy = Some gx /\ vjp (logsumexp minv exp axis true) x gy gx.
Proof.
  intros minv at_empty axis k x gy AE P Hx Hg N. apply index_empty_at in AE. pose proof N as [Hk _].
  assert (Hg' : has_shape (set_at k 1%nat (a_shape x)) gy).
  { destruct (lse_of_keep k x Hk) as [S _]. simpl a_shape in S. rewrite S. exact Hg. }
  eexists. split; [apply (logsumexp_grad_run minv at_empty axis k); auto|]. apply logsumexp_vjp; assumption.
Qed.
Print Assumptions C49_gradient.
(** Dropping the axis is right for the first axis ... *)
Theorem C49_first_axis_dropped : forall minv at_empty axis d sh x gy, scalar_index at_empty -> prod (d :: sh) <> 0%nat -> has_shape (d :: sh) x ->
  has_shape sh gy -> names_axis (length (d :: sh)) axis 0 ->
  (exists y, logsumexp minv exp axis false x = Some y /\ logsumexp_of false 0 x y) /\
  (exists gx, logsumexp_grad minv exp at_empty axis x gy = Some gx /\ vjp (logsumexp minv exp axis false) x gy gx).
Proof.
  intros minv at_empty axis d sh x gy AE P Hx Hg N. apply index_empty_at in AE. pose proof Hx as Hx'. apply has_shape_wf in Hx'. destruct Hx' as [Sx Wx].
  assert (Hd : (0 < d)%nat) by (apply (dims_pos (d :: sh) 0 P); simpl; lia). split.
  - eexists. split; [apply (logsumexp_drop minv axis d sh); auto|]. unfold logsumexp_of. cbv beta iota zeta. rewrite Sx. split; [reflexivity|]. split; [apply (proj2 (tab_has_shape _ _))|].
    intros i Hi. inversion Hi as [|a b s j Ha Hj]; subst. simpl. rewrite aget_tab by exact Hj. unfold lse. rewrite !line_sum_rsum. reflexivity.
  - eexists. split; [apply (logsumexp_grad_drop minv at_empty axis d sh); auto|]. apply logsumexp_drop_vjp; auto.
Qed.
Print Assumptions C49_first_axis_dropped.
(** ... but on a matrix's second axis it panics (whatever exp is) unless the
    matrix is square or has a single row or column ... *)
Theorem C49_second_axis_dropped_panics : forall minv ex n m x, a_shape x = [n; m] -> n <> m -> n <> 1%nat -> m <> 1%nat -> logsumexp minv ex 1 false x = None.
Proof.
  intros minv ex n m x S N1 N2 N3. unfold logsumexp. rewrite S. unfold axis_of. simpl. unfold fold_to, fold_axis. rewrite S. simpl.
  unfold into_shape. cbn [a_shape]. rewrite Nat.eqb_refl. simpl. unfold zip_bc. rewrite S. cbn [a_shape]. unfold co_broadcast. simpl.
  destruct (Nat.eqb_spec m n); [congruence|]. destruct (Nat.eqb_spec m 1); [congruence|]. destruct (Nat.eqb_spec n 1); [congruence|]. reflexivity.
Qed.
Print Assumptions C49_second_axis_dropped_panics.
(** ... and on a square matrix it subtracts the wrong maxima. *)
Theorem C49_second_axis_dropped_refuted : forall minv, minv <= 0 ->
  exists x y, has_shape [2; 2]%nat x /\ logsumexp minv exp 1 false x = Some y /\ ~ logsumexp_of false 1 x y.
Proof.
  intros minv Hm. exists (Arr [2; 2]%nat [0; 0; 1; 1]).
  eexists. split; [split; reflexivity|]. split; [cbv -[Rplus Rmult Rminus Ropp Rmax exp ln IZR]; reflexivity|].
  intros (_ & _ & G). specialize (G [0; 0]%nat). simpl a_shape in G. specialize (G ltac:(repeat constructor)).
  cbv -[Rplus Rmult Rminus Ropp Rmax exp ln IZR Rle] in G.
  rewrite (Rmax_right minv 0), (Rmax_left 0 0), (Rmax_right minv 1), (Rmax_left 1 1) in G by lra.
  replace (0 - 0) with 0 in G by ring. replace (0 - 1) with (-1) in G by ring. rewrite !exp_0 in G.
  assert (L : ln (0 + 1 + exp (-1)) < ln (0 + 1 + 1)).
  { pose proof (exp_pos (-1)). apply ln_increasing; [lra|]. pose proof (exp_increasing (-1) 0 ltac:(lra)) as I. rewrite exp_0 in I. lra. }
  replace (1 + (1 + 0)) with (0 + 1 + 1) in G by ring. replace (1 + 1) with (0 + 1 + 1) in G by ring. lra.
Qed.
Print Assumptions C49_second_axis_dropped_refuted.
Example C49_hypotheses_met :
  let x := Arr [2; 3]%nat [0; 1; 2; 3; 4; 5] in
  has_shape [2; 3]%nat x /\ prod [2; 3]%nat <> 0%nat /\ names_axis (length [2; 3]%nat) (-2) 0 /\ has_shape [3]%nat (Arr [3]%nat [1; 2; 3]) /\
  has_shape (firstn 1 [2; 3]%nat ++ 1%nat :: skipn 2 [2; 3]%nat) (Arr [2; 1]%nat [1; 2]).
Proof. repeat split; simpl; try lia. Qed.

(** ** C50: cross entropies *)
Definition sigmoid_of (a : R) : R := exp a / (1 + exp a).
(** The binary cross entropy of the sigmoid of [x] against [t]. *)
Theorem C50_sigmoid : forall x t, has_shape (a_shape x) x -> has_shape (a_shape x) t ->
  exists y, sigmoid_xent exp x t = Some y /\
    entries x y (fun i => - (aget 0 t i * ln (sigmoid_of (aget 0 x i)) + (1 - aget 0 t i) * ln (1 - sigmoid_of (aget 0 x i)))).
Proof.
  intros x t Hx Ht. apply has_shape_wf in Hx, Ht. exists (sxent x t). split; [apply sigmoid_xent_run; [apply Hx|apply Ht|apply Ht]|].
  split; [reflexivity|]. split; [apply (proj2 (tab_has_shape _ _))|]. intros i Hi. unfold sxent. rewrite aget_tab by exact Hi. set (a := rget x i). unfold sigmoid_of.
  pose proof (exp_pos a) as Pa. replace (1 - exp a / (1 + exp a)) with (/ (1 + exp a)) by (field; lra).
  rewrite ln_Rinv by lra. unfold Rdiv. rewrite ln_mult, ln_Rinv, ln_exp by (try apply Rinv_0_lt_compat; lra). ring.
Qed.
Print Assumptions C50_sigmoid.
Theorem C50_sigmoid_shapes_differ : forall ex x t, a_shape x <> a_shape t -> sigmoid_xent ex x t = None.
Proof.
  intros ex x t N. unfold sigmoid_xent. destruct (shape_eqb (a_shape x) (a_shape t)) eqn:E; [|reflexivity]. apply shape_eqb_ok in E. contradiction.
Qed.
Print Assumptions C50_sigmoid_shapes_differ.
Theorem C50_sigmoid_gradient : forall at_empty x t gy, scalar_index at_empty -> prod (a_shape x) <> 0%nat -> a_shape x <> [1%nat] ->
  has_shape (a_shape x) x -> has_shape (a_shape x) t -> has_shape (a_shape x) gy ->
  exists gx, sigmoid_xent_grad_x exp at_empty x t gy = Some gx /\ vjp (fun x => sigmoid_xent exp x t) x gy gx.
Proof.
  intros at_empty x t gy AE P N Hx Ht Hg. apply index_empty_at in AE. eexists. split; [apply sigmoid_xent_grad_x_run; auto|apply sigmoid_xent_vjp_x; auto].
Qed.
Print Assumptions C50_sigmoid_gradient.
(** The gradient for the labels is right only where the labels equal the logits
    (or nothing flows back). *)
Theorem C50_sigmoid_label_gradient_wrong : forall at_empty x t gy, scalar_index at_empty -> prod (a_shape t) <> 0%nat ->
  has_shape (a_shape t) x -> has_shape (a_shape t) t -> has_shape (a_shape t) gy ->
  exists gt, sigmoid_xent_grad_t at_empty x t gy = Some gt /\
    (vjp (sigmoid_xent exp x) t gy gt <-> forall i, in_bounds (a_shape t) i -> aget 0 gy i <> 0 -> aget 0 x i = aget 0 t i).
Proof.
  intros at_empty x t gy AE P Hx Ht Hg. apply index_empty_at in AE. eexists. split; [apply sigmoid_xent_grad_t_run; auto|].
  pose proof (sigmoid_xent_vjp_t x t gy Hx Ht Hg) as V. split.
  - intros W i Hi Nz. pose proof (vjp_unique _ _ _ _ _ W V) as Q. apply (f_equal (fun a => rget a i)) in Q. cbv beta in Q. rewrite !aget_tab in Q by exact Hi.
    apply Rmult_eq_reg_l in Q; [lra|exact Nz].
  - intros E. assert (Q : tab (a_shape t) (fun i => rget gy i * (0 - rget t i)) = tab (a_shape t) (fun i => rget gy i * (0 - rget x i))).
    { apply tab_ext. intros i Hi. destruct (Req_dec (rget gy i) 0) as [Z|Z]; [rewrite Z; ring|]. rewrite (E i Hi Z). reflexivity. }
    rewrite Q. exact V.
Qed.
Print Assumptions C50_sigmoid_label_gradient_wrong.

(** One loss per row: minus the sum of label times log-softmax. *)
Theorem C50_softmax : forall minv n c x t, has_shape [n; c] x -> has_shape [n; c] t -> (n * c <> 0)%nat ->
  exists y log_x, softmax_xent minv exp x t = Some (y, log_x) /\ log_softmax_of 1 x log_x /\ has_shape [n] y /\
    forall i, (i < n)%nat -> aget 0 y [i] = - sum_below c (fun j => aget 0 t [i; j] * aget 0 log_x [i; j]).
Proof.
  intros minv n c x t Hx Ht P. assert (P' : prod [n; c] <> 0%nat) by (simpl; lia). exists (xent_row n c x t), (lsmax 1 x). split; [apply softmax_xent_run; auto|].
  apply has_shape_wf in Hx. destruct Hx as [Sx Wx]. split.
  - split; [reflexivity|]. split; [apply (proj2 (tab_has_shape (a_shape x) _))|]. intros i Hi. unfold lsmax. rewrite aget_tab by exact Hi. reflexivity.
  - split; [apply tab_has_shape|]. intros i Hi. unfold xent_row. rewrite aget_tab by (constructor; [exact Hi|constructor]). rewrite sum_below_rsum. reflexivity.
Qed.
Print Assumptions C50_softmax.
(** With labels that sum to one, a single row's gradient is right. *)
Theorem C50_softmax_gradient_one_row : forall minv at_empty c x t gy, scalar_index at_empty -> (c <> 0)%nat ->
  has_shape [1%nat; c] x -> has_shape [1%nat; c] t -> has_shape [1%nat] gy -> sum_below c (fun j => aget 0 t [0%nat; j]) = 1 ->
  exists y log_x gx, softmax_xent minv exp x t = Some (y, log_x) /\ softmax_xent_grad_x exp at_empty t y log_x gy = Some gx /\
    vjp (fun x => option_map fst (softmax_xent minv exp x t)) x gy gx.
Proof.
  intros minv at_empty c x t gy AE C Hx Ht Hg T. apply index_empty_at in AE. assert (P : prod [1%nat; c] <> 0%nat) by (simpl; lia).
  eexists _, _, _. split; [apply (softmax_xent_run minv 1 c); auto|]. split; [apply (softmax_xent_grad_one at_empty c); auto|].
  pose proof (softmax_xent_vjp minv 1 c x t gy Hx Ht Hg P) as V. rewrite sum_below_rsum in T.
  match type of V with vjp _ _ _ ?a => match goal with |- vjp _ _ _ ?b => replace b with a; [exact V|] end end.
  apply tab_ext. intros i Hi. pose proof Hi as Hi'. apply pair_bounds in Hi'. destruct Hi' as (r & q & -> & Hr & Hq). simpl nth. replace r with 0%nat by lia. rewrite T. ring.
Qed.
Print Assumptions C50_softmax_gradient_one_row.
(** With several rows it panics, unless the number of classes is the same or 1 ... *)
Theorem C50_softmax_gradient_panics : forall minv at_empty n c x t y log_x gy, scalar_index at_empty -> (n * c <> 0)%nat -> n <> 1%nat -> c <> 1%nat -> n <> c ->
  has_shape [n; c] x -> has_shape [n; c] t -> has_shape [n] gy -> softmax_xent minv exp x t = Some (y, log_x) ->
  softmax_xent_grad_x exp at_empty t y log_x gy = None.
Proof.
  intros minv at_empty n c x t y log_x gy AE N0 N1 C1 NC Hx Ht Hg R. apply index_empty_at in AE. rewrite (softmax_xent_run minv n c) in R by (auto; simpl; lia). injection R as <- <-.
  unfold softmax_xent_grad_x. rewrite (softmax_xent_diff at_empty n c) by auto. unfold bind.
  unfold mul_forward, bin_forward. cbn [tab a_shape]. rewrite (proj1 Hg).
  assert (S1 : is_scalar_shape [n; c] = false) by (destruct n; [lia|reflexivity]).
  assert (S2 : is_scalar_shape [n] = false) by (destruct n; [lia|reflexivity]).
  rewrite S1, S2. simpl. unfold zip_bc. cbn [a_shape]. rewrite (proj1 Hg). unfold co_broadcast. simpl.
  destruct (Nat.eqb_spec c n); [congruence|]. destruct (Nat.eqb_spec c 1); [congruence|]. destruct (Nat.eqb_spec n 1); [congruence|]. reflexivity.
Qed.
Print Assumptions C50_softmax_gradient_panics.
(** ... and with as many rows as classes each column, not each row, is weighted
    with its part of the incoming gradient: right only if all that flows back is
    the same wherever the prediction is off. *)
Theorem C50_softmax_gradient_square : forall minv at_empty n x t gy, scalar_index at_empty -> (n <> 0)%nat ->
  has_shape [n; n] x -> has_shape [n; n] t -> has_shape [n] gy -> (forall i, (i < n)%nat -> sum_below n (fun j => aget 0 t [i; j]) = 1) ->
  exists y log_x gx p, softmax_xent minv exp x t = Some (y, log_x) /\ softmax_xent_grad_x exp at_empty t y log_x gy = Some gx /\ softmax_of 1 x p /\
    (vjp (fun x => option_map fst (softmax_xent minv exp x t)) x gy gx <->
     forall i j, (i < n)%nat -> (j < n)%nat -> aget 0 p [i; j] <> aget 0 t [i; j] -> aget 0 gy [i] = aget 0 gy [j]).
Proof.
  intros minv at_empty n x t gy AE N0 Hx Ht Hg T. apply index_empty_at in AE. assert (P : prod [n; n] <> 0%nat) by (simpl; lia).
  eexists _, _, _, (smax 1 x). split; [apply (softmax_xent_run minv n n); auto|]. split; [apply (softmax_xent_grad_square at_empty n); auto|]. split; [apply smax_of|].
  pose proof (softmax_xent_vjp minv n n x t gy Hx Ht Hg P) as V. split.
  - intros W i j Hi Hj Nz. pose proof (vjp_unique _ _ _ _ _ W V) as Q. apply (f_equal (fun a => rget a [i; j])) in Q. cbv beta in Q.
    rewrite !aget_tab in Q by (apply in_bounds_pair; lia). simpl nth in Q. pose proof (T i Hi) as Ti. rewrite sum_below_rsum in Ti. rewrite Ti in Q. rewrite Rmult_1_r in Q.
    rewrite Rmult_comm in Q. apply Rmult_eq_reg_r in Q; [symmetry; exact Q|]. lra.
  - intros E. match type of V with vjp _ _ _ ?a => match goal with |- vjp _ _ _ ?b => replace b with a; [exact V|] end end.
    apply tab_ext. intros i Hi. pose proof Hi as Hi'. apply pair_bounds in Hi'. destruct Hi' as (r & q & -> & Hr & Hq). simpl nth.
    pose proof (T r Hr) as Tr. rewrite sum_below_rsum in Tr. rewrite Tr. rewrite Rmult_1_r.
    destruct (Req_dec (rget (smax 1 x) [r; q]) (rget t [r; q])) as [Z|Z]; [rewrite Z; ring|]. rewrite (E r q Hr Hq Z). ring.
Qed.
Print Assumptions C50_softmax_gradient_square.
Theorem C50_softmax_gradient_refuted : forall minv at_empty, scalar_index at_empty ->
  exists x t gy y log_x gx, has_shape [2; 2]%nat x /\ has_shape [2; 2]%nat t /\ has_shape [2]%nat gy /\
    softmax_xent minv exp x t = Some (y, log_x) /\ softmax_xent_grad_x exp at_empty t y log_x gy = Some gx /\
    ~ vjp (fun x => option_map fst (softmax_xent minv exp x t)) x gy gx.
Proof.
  intros minv at_empty AE. set (x := Arr [2; 2]%nat [0; 0; 0; 0]). set (t := Arr [2; 2]%nat [1; 0; 0; 1]). set (gy := Arr [2]%nat [1; 0]).
  destruct (C50_softmax_gradient_square minv at_empty 2 x t gy AE) as (y & l & gx & p & E1 & E2 & Sp & Q); [lia|split; reflexivity|split; reflexivity|split; reflexivity| |].
  { intros i Hi. destruct i as [|[|i]]; [| |lia]; cbv -[Rplus IZR]; lra. }
  exists x, t, gy, y, l, gx. split; [split; reflexivity|]. split; [split; reflexivity|]. split; [split; reflexivity|]. split; [exact E1|]. split; [exact E2|].
  intros V. pose proof (proj1 Q V 0%nat 1%nat ltac:(lia) ltac:(lia)) as G.
  destruct Sp as (_ & _ & Sp). specialize (Sp [0; 1]%nat ltac:(repeat constructor)).
  assert (0 < aget 0 p [0; 1]%nat).
  { rewrite Sp. apply Rmult_lt_0_compat; [apply exp_pos|]. apply Rinv_0_lt_compat. apply line_pos; [repeat constructor|simpl; lia]. }
  set (q := aget 0 p [0; 1]%nat) in *. assert (B : q <> aget 0 t [0; 1]%nat) by (cbv -[q IZR]; lra). specialize (G B). cbv -[IZR] in G. lra.
Qed.
Print Assumptions C50_softmax_gradient_refuted.
(** The gradient for the labels is wrong already for one row. *)
Theorem C50_softmax_label_gradient_refuted : forall minv at_empty, scalar_index at_empty ->
  exists x t gy y log_x gt, has_shape [1; 2]%nat x /\ has_shape [1; 2]%nat t /\ has_shape [1]%nat gy /\
    softmax_xent minv exp x t = Some (y, log_x) /\ softmax_xent_grad_t exp at_empty t y log_x gy = Some gt /\
    ~ vjp (fun t => option_map fst (softmax_xent minv exp x t)) t gy gt.
Proof.
  intros minv at_empty AE. apply index_empty_at in AE. set (x := Arr [1; 2]%nat [0; 0]). set (t := Arr [1; 2]%nat [1; 0]). set (gy := Arr [1]%nat [1]).
  assert (Hx : has_shape [1; 2]%nat x) by (split; reflexivity). assert (Ht : has_shape [1; 2]%nat t) by (split; reflexivity). assert (Hg : has_shape [1]%nat gy) by (split; reflexivity).
  assert (P : prod [1; 2]%nat <> 0%nat) by (simpl; lia).
  eexists x, t, gy, _, _, _. split; [exact Hx|]. split; [exact Ht|]. split; [exact Hg|]. split; [apply (softmax_xent_run minv 1 2); auto|].
  split; [apply (softmax_xent_grad_t_one at_empty 2); auto; first [apply tab_has_shape | lia]|].
  intros V. pose proof (vjp_unique _ _ _ _ _ V (softmax_xent_vjp_t minv 1 2 x t gy Hx Ht Hg P)) as Q.
  apply (f_equal (fun a => rget a [0; 0]%nat)) in Q. cbv beta in Q. rewrite !aget_tab in Q by (repeat constructor).
  assert (L : forall j, (j < 2)%nat -> rget (lsmax 1 x) [0%nat; j] = - ln 2).
  { intros j Hj. unfold lsmax. rewrite aget_tab by (apply in_bounds_pair; simpl; lia). unfold lse. rewrite line_sum_rsum. destruct j as [|[|j]]; [| |lia]; cbv -[Rplus Rminus Ropp exp ln IZR];
      rewrite exp_0; replace (1 + (1 + 0)) with 2 by ring; ring. }
  assert (E : forall j, (j < 2)%nat -> rget (smax 1 x) [0%nat; j] = / 2).
  { intros j Hj. rewrite <- exp_lsmax by first [simpl; lia | apply in_bounds_pair; simpl; lia]. rewrite L, exp_Ropp, exp_ln by (lia || lra). reflexivity. }
  simpl nth in Q. simpl in Q. rewrite !L, !E in Q by lia. pose proof ln_lt_2 as B. change (aget 0 gy [0%nat]) with 1 in Q.
  replace (- ln 2 - - ln 2) with 0 in Q by ring. lra.
Qed.
Print Assumptions C50_softmax_label_gradient_refuted.

(** Class numbers as labels: the loss of row [i] is minus the log-softmax of its
    class, and the gradient is right. *)
Theorem C50_sparse : forall minv n c x t lab gy, (n * c <> 0)%nat -> has_shape [n; c] x ->
  has_shape [n] t \/ has_shape [n; 1%nat] t ->
  (forall i, (i < n)%nat -> nth_error (a_data t) i = Some (INR (lab i)) /\ (lab i < c)%nat) -> has_shape [n; 1%nat] gy ->
  exists y log_x gx, sparse_xent minv exp x t = Some (y, log_x) /\ log_softmax_of 1 x log_x /\ has_shape [n; 1%nat] y /\
    (forall i, (i < n)%nat -> aget 0 y [i; 0%nat] = - aget 0 log_x [i; lab i]) /\
    sparse_xent_grad_x exp log_x t gy = Some gx /\ vjp (fun x => option_map fst (sparse_xent minv exp x t)) x gy gx.
Proof.
  intros minv n c x t lab gy P Hx Ht L Hg. assert (P' : prod [n; c] <> 0%nat) by (simpl; lia).
  eexists _, (lsmax 1 x), _. split; [apply (sparse_xent_run minv n c x t lab); auto|]. split.
  { split; [reflexivity|]. split; [apply (proj2 (tab_has_shape (a_shape x) _))|]. intros i Hi. unfold lsmax. rewrite aget_tab by exact Hi. reflexivity. }
  split; [apply tab_has_shape|]. split; [intros i Hi; unfold xent_pick; rewrite aget_tab by (apply in_bounds_pair; lia); reflexivity|].
  split; [apply (sparse_xent_grad_run n c x t lab); auto|]. apply (sparse_xent_vjp minv n c x t lab); auto.
Qed.
Print Assumptions C50_sparse.
(** A row without a label, or with a label that is not a class, panics. *)
Theorem C50_sparse_bad_label : forall minv n c x t i, has_shape [n; c] x -> (i < n)%nat -> (c <> 0)%nat ->
  nth_error (a_data t) i = None \/ (exists l, nth_error (a_data t) i = Some (INR l) /\ (c <= l)%nat) ->
  sparse_xent minv exp x t = None.
Proof.
  intros minv n c x t i Hx Hi C H. apply has_shape_wf in Hx. destruct Hx as [Sx Wx]. unfold sparse_xent.
  rewrite (log_softmax_run minv 1 x 1 Wx) by (rewrite Sx; first [simpl; nia | apply names_one]). unfold bind at 1. change (a_shape (lsmax 1 x)) with (a_shape x). rewrite Sx.
  assert (E : label_at t c i = None).
  { unfold label_at. destruct H as [->|(l & -> & Hl)]; [reflexivity|]. simpl. rewrite to_usize_INR. simpl. destruct (Nat.ltb_spec l c); [lia|reflexivity]. }
  cbv zeta. destruct (match a_shape t with [] => false | [_] => true | [_; m] => (m =? 1)%nat | _ => false end); [|reflexivity].
  rewrite all_some_none; [reflexivity|]. apply in_map_iff. exists i. split; [rewrite E; reflexivity|]. apply in_seq. lia.
Qed.
Print Assumptions C50_sparse_bad_label.
Example C50_hypotheses_met :
  let x := Arr [2; 3]%nat [0; 1; 2; 3; 4; 5] in
  has_shape [2; 3]%nat x /\ has_shape [2]%nat (Arr [2]%nat [INR 2; INR 0]) /\
  (forall i, (i < 2)%nat -> nth_error [INR 2; INR 0] i = Some (INR (nth i [2; 0]%nat 0%nat)) /\ (nth i [2; 0]%nat 0%nat < 3)%nat) /\
  sum_below 3 (fun j => aget 0 (Arr [1; 3]%nat [0; 1; 0]) [0%nat; j]) = 1.
Proof.
  repeat split; try (destruct i as [|[|i]]; simpl; (reflexivity || lia)). cbv -[Rplus IZR]. lra.
Qed.
