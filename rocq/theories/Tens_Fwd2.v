(** Forward computations of the further reductions, of element access, axis
    insertion and the cross entropies, in terms of index maps. *)
From Coq Require Import String List Arith ZArith NArith Bool Lia Reals Lra.
Import ListNotations.
From Verif Require Import Graph_Model Eval_Model Eval_Spec Eval_Proofs Grad_Model Grad_Spec
  Scalar_Model Scalar_Spec Scalar_Proofs.
From Verif Require Import Array_Model Array_Proofs Array_Sum Array_Fold Arith_Model Arith_Proofs Vjp_Spec Vjp_Proofs
  Reduce_Model Reduce_Spec Reduce_Proofs Mean_Model Shape_Model Shape_Spec Shape_Proofs2 Shape_Proofs3
  Dot_Model Dot_Proofs Softmax_Model Softmax_Spec Softmax_Proofs Softmax_Proofs2 Softmax_Proofs3 Softmax_Xent Tens_Model Tens_Spec Tens_Fwd.
From Verif Require Pool_Model.
Local Set Bullet Behavior "Strict Subproofs".
Local Open Scope R_scope.

(** ** The number of averaged elements *)
Lemma f32_small n : (n <= 2 ^ 24)%N -> f32_of n = n.
Proof.
  intros H. unfold f32_of, Pool_Model.round_bits. destruct (N.ltb_spec n (2 ^ 24)%N) as [L|L]; [reflexivity|].
  assert (n = 2 ^ 24)%N as -> by lia. reflexivity.
Qed.
Lemma mean_len_from_exact sh : nonempty sh = true -> forall ax acc, (0 < acc)%N -> Forall (fun k => (k < length sh)%nat) ax ->
  (acc * N.of_nat (group_size ax sh) <= 2 ^ 24)%N -> mean_len_from acc sh ax = Some (acc * N.of_nat (group_size ax sh))%N.
Proof.
  intros NE. assert (HP : forall ax, Forall (fun k => (k < length sh)%nat) ax -> (0 < group_size ax sh)%nat).
  { intros ax F. unfold group_size. induction F as [|k ax Hk _ IH]; simpl; [lia|]. apply nonempty_prod in NE. pose proof (dims_pos _ k NE Hk). nia. }
  induction ax as [|k ax IH]; intros acc Ha F HB.
  - unfold group_size in *. simpl in *. f_equal. lia.
  - inversion F as [|? ? Hk F']; subst. pose proof (HP _ F') as HP'. pose proof NE as NE'. apply nonempty_prod in NE'. pose proof (dims_pos _ k NE' Hk) as Hd.
    assert (EG : group_size (k :: ax) sh = (nth k sh 0 * group_size ax sh)%nat) by reflexivity. rewrite EG, Nat2N.inj_mul in *.
    set (d := N.of_nat (nth k sh 0%nat)) in *. set (m := N.of_nat (group_size ax sh)) in *.
    assert (Hdn : (0 < d)%N) by (unfold d; lia). assert (Hm : (0 < m)%N) by (unfold m; lia).
    cbn [mean_len_from]. rewrite (nth_error_nth' _ 0%nat Hk). fold d.
    rewrite (f32_small d) by nia. rewrite (f32_small (acc * d)) by nia. rewrite IH; [f_equal; unfold m; lia|nia|exact F'|unfold m in *; nia].
Qed.
Lemma axes_bound n axes ax : axes_of n axes = Some ax -> Forall (fun k => (k < n)%nat) ax /\ length axes = length ax /\ NoDup ax.
Proof.
  intros H. apply axes_of_ok in H. destruct H as [ND F]. split; [|split; auto].
  - clear ND. induction F as [|z k l m [Hk _] _ IH]; constructor; auto.
  - eapply Forall2_len; eauto.
Qed.
Lemma axes_normalized n axes ax : axes_of n axes = Some ax -> normalize_axes n axes = Some ax.
Proof. intros H. apply axes_of_ok in H. destruct H as [_ F]. apply normalize_axes_ok. exact F. Qed.
Definition mean_of (keep : bool) (ax sh : list nat) (x : arr R) : arr R :=
  tab (reduced_shape keep ax sh) (fun i => rsum (indices sh) (fun j => delta (reduced_index keep ax j) i / INR (group_size ax sh) * rget x j)).
Lemma reduce_mean_ok keep axes ax sh x : has_shape sh x -> nonempty sh = true -> axes_of (length sh) axes = Some ax ->
  (N.of_nat (group_size ax sh) <= 2 ^ 24)%N -> ax <> [] -> reduce_mean axes keep false x = Some (mean_of keep ax sh x).
Proof.
  intros Hx NE HA HB Hne. pose proof (axes_bound _ _ _ HA) as (Fa & La & _). pose proof (axes_normalized _ _ _ HA) as NA.
  assert (N0 : sh <> [0%nat]) by (intros ->; discriminate).
  pose proof (reduce_push keep axes ax sh x Hx N0 HA) as RP. unfold reduce, preprocess_axes in RP. rewrite (hs_sh _ _ Hx) in RP.
  rewrite NA in RP. unfold bind in RP. unfold reduce_mean, preprocess_axes. rewrite (hs_sh _ _ Hx). rewrite NA. unfold bind at 1.
  destruct ax as [|k ax']; [congruence|]. set (ax := k :: ax') in *.
  assert (ML : mean_len sh ax = Some (N.of_nat (group_size ax sh))).
  { unfold mean_len. rewrite (mean_len_from_exact sh NE ax 1); [f_equal; lia|lia|exact Fa|lia]. }
  rewrite ML. unfold bind at 1. rewrite RP. unfold bind at 1.
  assert (SC : is_scalar_shape sh = false).
  { rewrite scalar_shape_nonempty by (apply nonempty_prod; exact NE). destruct sh as [|d sh']; [|reflexivity].
    inversion Fa. simpl in *. lia. }
  rewrite SC. f_equal. rewrite nat_N_Z, <- INR_IZR_INZ.
  rewrite (amap_tab _ (reduced_shape keep ax sh)) by apply tab_has_shape. unfold mean_of. apply tab_ext. intros i Hi.
  unfold push. rewrite aget_tab by exact Hi. rewrite <- rsum_scale_r. apply rsum_ext. intros j _. unfold Rdiv. ring.
Qed.
Lemma reduce_mean_typed keep axes ax sh x : has_shape sh x -> nonempty sh = true -> axes_of (length sh) axes = Some ax ->
  (N.of_nat (group_size ax sh) <= 2 ^ 24)%N -> exists y, reduce_mean axes keep false x = Some y /\ has_shape (reduced_shape keep ax sh) y.
Proof.
  intros Hx NE HA HB. destruct ax as [|k ax].
  - exists x. split; [|rewrite (proj1 (reduced_nil keep sh)); exact Hx]. unfold reduce_mean, preprocess_axes. rewrite (hs_sh _ _ Hx), (axes_normalized _ _ _ HA). reflexivity.
  - eexists. split; [apply (reduce_mean_ok keep axes (k :: ax) sh); auto; discriminate|]. apply tab_has_shape.
Qed.

(** ** Products and extremes of groups *)
Definition fibre (keep : bool) (ax sh i : list nat) : list (list nat) := filter (fun j => shape_eqb (reduced_index keep ax j) i) (indices sh).
Definition folded (op : R -> R -> R) (e : R) (keep : bool) (ax sh : list nat) (x : arr R) : arr R :=
  tab (reduced_shape keep ax sh) (fun i => fold_right op e (map (rget x) (fibre keep ax sh i))).
Lemma in_fibre keep ax sh i j : In j (fibre keep ax sh i) <-> in_bounds sh j /\ reduced_index keep ax j = i.
Proof. unfold fibre. rewrite filter_In, shape_eqb_ok. rewrite indices_in. reflexivity. Qed.
Section Folds.
Variables (op : R -> R -> R) (e : R).
Hypothesis assoc : forall a b c, op a (op b c) = op (op a b) c.
Hypothesis comm : forall a b, op a b = op b a.
Hypothesis ee : op e e = e.
Lemma reduce_typed keep axes ax sh x : has_shape sh x -> sh <> [0%nat] -> axes_of (length sh) axes = Some ax ->
  exists y, reduce 0 op e axes keep false x = Some y /\ has_shape (reduced_shape keep ax sh) y.
Proof.
  intros Hx N A. apply axes_of_ok in A. rewrite <- (hs_sh _ _ Hx) in N, A.
  destruct (reduce_ok 0 e op assoc comm ee keep axes ax x) as (y & E & W & S & _); eauto using hs_wf.
  exists y. split; auto. rewrite (hs_sh _ _ Hx) in S. apply has_shape_intro; auto.
Qed.
Lemma reduce_folded keep axes ax sh x : has_shape sh x -> sh <> [0%nat] -> axes_of (length sh) axes = Some ax -> ax <> [] ->
  reduce 0 op e axes keep false x = Some (folded op e keep ax sh x).
Proof.
  intros Hx N A Hne. apply axes_of_ok in A. rewrite <- (hs_sh _ _ Hx) in N, A.
  destruct (reduce_ok 0 e op assoc comm ee keep axes ax x) as (y & E & W & S & F1 & _); eauto using hs_wf.
  rewrite E. f_equal. rewrite (hs_sh _ _ Hx) in S. apply tab_eq; [apply has_shape_intro; auto|].
  intros i Hi. rewrite (F1 Hne) by (rewrite S; exact Hi). rewrite (hs_sh _ _ Hx). unfold sumf, fibre.
  induction (filter _ (indices sh)) as [|j l IH]; simpl; congruence.
Qed.
End Folds.
Lemma ext_assoc (mx : bool) (a b c : R) : (if mx then Rmax else Rmin) a ((if mx then Rmax else Rmin) b c) = (if mx then Rmax else Rmin) ((if mx then Rmax else Rmin) a b) c.
Proof. destruct mx; [apply Rmax_assoc|apply Rmin_assoc]. Qed.
Lemma ext_comm (mx : bool) (a b : R) : (if mx then Rmax else Rmin) a b = (if mx then Rmax else Rmin) b a.
Proof. destruct mx; [apply Rmax_comm|apply Rmin_comm]. Qed.
Lemma ext_idem (mx : bool) (a : R) : (if mx then Rmax else Rmin) a a = a.
Proof. destruct mx; [apply Rmax_left|apply Rmin_left]; lra. Qed.
Lemma mul_assoc (a b c : R) : a * (b * c) = a * b * c.
Proof. ring. Qed.
Lemma mul_comm (a b : R) : a * b = b * a.
Proof. ring. Qed.
Lemma mul_one : 1 * 1 = 1.
Proof. ring. Qed.

(** ** The divisor of the gradient of means *)
Lemma vecZ_wf l : wf (vecZ l).
Proof. unfold wf, vecZ. simpl. lia. Qed.
Lemma gather_dims sh axes ax : axes_of (length sh) axes = Some ax -> ax <> [] ->
  option_map (fun a => a_data a) (gather 0%Z true 0 (vecZ axes) (vecZ (shape_vec sh))) = Some (map (fun k => Z.of_nat (nth k sh 0%nat)) ax).
Proof.
  intros HA Hne. pose proof (axes_bound _ _ _ HA) as (Fa & La & _). apply axes_of_ok in HA. destruct HA as [_ F2].
  assert (Ls : length (shape_vec sh) = length sh) by (unfold shape_vec; apply map_length).
  destruct (gather_ok 0%Z true 0%Z 0 (vecZ axes) (vecZ (shape_vec sh)) ax) as (s & _ & E & Ws & Ss & Gs & _); auto using vecZ_wf.
  - split; [simpl; lia|]. left. reflexivity.
  - simpl. intros ->. apply Hne. destruct ax; [reflexivity|discriminate].
  - unfold axis_len, vecZ. cbn [a_shape a_data nth]. rewrite Ls. eapply forall2_impl; [|exact F2]. intros z k [H1 H2]. split; [exact H1|]. destruct H2 as [-> | ->]; auto.
  - rewrite E. simpl. f_equal. simpl in Ss. apply nth_ext with 0%Z 0%Z.
    + rewrite map_length. rewrite Ws, Ss. simpl. lia.
    + intros m Hm. rewrite Ws, Ss in Hm. simpl in Hm. assert (Hm' : (m < length ax)%nat) by lia.
      specialize (Gs [m]). rewrite Ss in Gs. unfold aget in Gs. rewrite Ss in Gs. simpl in Gs. rewrite !Nat.mul_1_r, !Nat.add_0_r in Gs.
      rewrite Gs by (constructor; [exact Hm'|constructor]).
      rewrite (nth_indep (map _ ax) 0%Z (Z.of_nat (nth 0 sh 0%nat))) by (rewrite map_length; exact Hm').
      rewrite (map_nth (fun k => Z.of_nat (nth k sh 0%nat)) ax 0%nat). unfold shape_vec.
      rewrite Forall_forall in Fa. specialize (Fa _ (nth_In _ 0%nat Hm')).
      rewrite (nth_indep _ 0%Z (Z.of_nat 0)) by (rewrite map_length; exact Fa). apply map_nth.
Qed.
Lemma prod_ints l : l <> [] -> option_map (fun a => amap IZR a) (reduce 0%Z Z.mul 1%Z [0%Z] false false (vecZ l)) = Some (Arr [] [IZR (fold_left Z.mul l 1%Z)]).
Proof.
  intros N. unfold reduce. simpl preprocess_axes. unfold bind. unfold compute_reduce.
  assert (SC : is_scalar_shape (a_shape (vecZ l)) = false) by (destruct l; [congruence|reflexivity]). rewrite SC.
  simpl. unfold tab, amap. simpl. do 5 f_equal.
  transitivity (map (fun m => nth m l 0%Z) (seq 0 (length l))).
  - apply map_ext. intros m. unfold aget. simpl. f_equal. lia.
  - clear. induction l as [|a l IH]; [reflexivity|]. simpl. f_equal. rewrite <- seq_shift, map_map. exact IH.
Qed.
Lemma prod_of_dims ds : IZR (fold_left Z.mul (map (fun k => Z.of_nat k) ds) 1%Z) = INR (prod ds).
Proof.
  rewrite INR_IZR_INZ. f_equal. rewrite fold_mul.
  replace (fold_right Z.mul 1%Z (map (fun k => Z.of_nat k) ds)) with (Z.of_nat (prod ds)); [lia|].
  induction ds as [|d ds IH]; [reflexivity|]. cbn [map fold_right]. rewrite <- IH. change (prod (d :: ds)) with (d * prod ds)%nat. lia.
Qed.

(** ** Element access and axis insertion *)
Lemma indices_ravel sh k : (k < prod sh)%nat -> in_bounds sh (nth k (indices sh) []) /\ ravel sh (nth k (indices sh) []) = k.
Proof.
  intros H. assert (L : length (indices sh) = prod sh) by (rewrite <- (map_length (ravel sh)), ravel_indices; apply seq_length). split.
  - apply indices_in. apply nth_In. lia.
  - rewrite <- (map_nth (ravel sh)). rewrite ravel_indices. rewrite (nth_indep _ _ 0%nat) by (rewrite seq_length; exact H). rewrite seq_nth by exact H. reflexivity.
Qed.
Lemma elem_pos_lt n i k : elem_pos n i = Some k -> (k < n)%nat.
Proof.
  unfold elem_pos. intros H.
  destruct ((0 <=? _)%Z && (_ <? Z.of_nat n)%Z)%bool eqn:E; inv H. apply andb_true_iff in E. destruct E as [E1 E2].
  apply Z.leb_le in E1. apply Z.ltb_lt in E2. lia.
Qed.
Lemma access_pull i k sh x : has_shape sh x -> elem_pos (prod sh) i = Some k ->
  access_elem 0 i x = Some (pullr (fun _ => nth k (indices sh) []) [] x).
Proof.
  intros Hx E. assert (W : length (a_data x) = prod sh) by apply Hx. unfold access_elem. rewrite W, E. simpl. f_equal.
  apply tab_eq; [split; reflexivity|]. intros j Hj. unfold aget at 2. rewrite (hs_sh _ _ Hx).
  rewrite (proj2 (indices_ravel sh k (elem_pos_lt _ _ _ E))). inversion Hj. reflexivity.
Qed.
Lemma access_grad_push i k sh x e : has_shape sh x -> elem_pos (prod sh) i = Some k ->
  access_elem_grad 0 i x e = Some (push (fun _ => nth k (indices sh) []) [] sh (Arr [] [e])).
Proof.
  intros Hx E. assert (W : length (a_data x) = prod sh) by apply Hx. unfold access_elem_grad. rewrite W, E. simpl. f_equal. rewrite (hs_sh _ _ Hx).
  pose proof (elem_pos_lt _ _ _ E) as Hk. destruct (indices_ravel sh k Hk) as [B1 B2].
  apply tab_eq; [split; [reflexivity|simpl; rewrite set_length; apply repeat_length]|].
  intros j Hj. rewrite rsum_nil. unfold aget. cbn [a_shape a_data].
  change (nth (ravel [] []) [e] 0) with e.
  destruct (Nat.eq_dec (ravel sh j) k) as [Q|Q].
  - rewrite Q, nth_set, repeat_length, Nat.eqb_refl. rewrite (proj2 (Nat.ltb_lt k (prod sh)) Hk). cbn [andb].
    assert (nth k (indices sh) [] = j) as -> by (apply (ravel_inj sh); auto; congruence). rewrite delta_eq. ring.
  - rewrite nth_set. rewrite (proj2 (Nat.eqb_neq _ _) Q). cbn [andb]. rewrite nth_repeat. rewrite delta_ne; [ring|]. intros <-. congruence.
Qed.
Lemma arr_reindex sh out x : has_shape sh x -> prod sh = prod out -> Arr out (a_data x) = pullr (reindex sh out) out x.
Proof.
  intros Hx P. assert (W : length (a_data x) = prod sh) by apply Hx.
  apply tab_eq; [split; [reflexivity|simpl; congruence]|]. intros i Hi. unfold aget. simpl. rewrite (hs_sh _ _ Hx).
  destruct (reindex_in sh out i P Hi) as [_ ->]. reflexivity.
Qed.
Lemma unit_axesb_ok ax sh out : unit_axesb ax sh out = true ->
  unit_axes ax sh out /\ Forall (fun k => (k < length out)%nat) ax /\ NoDup ax.
Proof.
  unfold unit_axesb. rewrite !andb_true_iff. intros [[[[H1 H2] H3] H4] H5]. apply Nat.eqb_eq in H1. apply shape_eqb_ok in H2.
  rewrite forallb_forall in H3, H4. split; [split; [exact H1|split; [exact H2|]]|split].
  - apply Forall_forall. intros k Hk. apply Nat.eqb_eq. auto.
  - apply Forall_forall. intros k Hk. apply Nat.ltb_lt. auto.
  - apply distinctb_ok. exact H5.
Qed.
Lemma expand_pull axes ax sh out x : has_shape sh x -> plain_indices axes = Some ax -> unit_axesb ax sh out = true ->
  prod out = prod sh /\ expand axes x = Some (pullr (reindex sh out) out x).
Proof.
  intros Hx HP HU. apply plain_indices_ok in HP. subst axes. apply unit_axesb_ok in HU. destruct HU as (U & B & ND).
  destruct (expand_ok ax x out ND B) as [E P]; [rewrite (hs_sh _ _ Hx); exact U|]. rewrite (hs_sh _ _ Hx) in P. split; [exact P|].
  rewrite E. f_equal. apply arr_reindex; auto.
Qed.
Lemma squeeze_pull axes ax sh out x : has_shape out x -> plain_indices axes = Some ax -> unit_axesb ax sh out = true ->
  prod out = prod sh /\ squeeze 0 axes x = Some (pullr (reindex out sh) sh x).
Proof.
  intros Hx HP HU. apply plain_indices_ok in HP. subst axes. apply unit_axesb_ok in HU. destruct HU as (U & B & ND).
  destruct (squeeze_ok 0 ax x sh) as [E P]; [eapply hs_wf; eauto|exact ND|rewrite (hs_sh _ _ Hx); exact B|rewrite (hs_sh _ _ Hx); exact U|].
  rewrite (hs_sh _ _ Hx) in P. split; [auto|]. rewrite E. f_equal. apply arr_reindex; auto.
Qed.

(** ** Class labels *)
Definition lab_of (t : list Z) (i : nat) : nat := Z.to_nat (nth i t 0%Z).
Lemma labels_ok_spec n c t : labels_ok n c t = true -> label_shape n (vecR t) /\
  (forall i, (i < n)%nat -> nth_error (a_data (vecR t)) i = Some (INR (lab_of t i)) /\ (lab_of t i < c)%nat).
Proof.
  unfold labels_ok. rewrite andb_true_iff. intros [L F]. apply Nat.eqb_eq in L. rewrite forallb_forall in F. split.
  - left. split; [simpl; congruence|]. simpl. rewrite map_length. lia.
  - intros i Hi. assert (B := F (nth i t 0%Z)). rewrite andb_true_iff, Z.leb_le, Z.ltb_lt in B. destruct B as [B1 B2]; [apply nth_In; lia|].
    unfold lab_of. split; [|lia]. simpl. rewrite nth_error_map, (nth_error_nth' t 0%Z) by lia. simpl.
    rewrite INR_IZR_INZ, Z2Nat.id by exact B1. reflexivity.
Qed.
Definition one_hot (l m : nat) : R := if (l =? m)%nat then 1 else 0.
Lemma sparse_grad_ok n c lx t gy : has_shape [n; c] lx -> labels_ok n c t = true -> has_shape [n; 1%nat] gy ->
  sparse_xent_grad_x exp lx (vecR t) gy =
    Some (tab [n; c] (fun i => (exp (rget lx i) - one_hot (lab_of t (nth 0 i 0%nat)) (nth 1 i 0%nat)) * rget gy [nth 0 i 0%nat; 0%nat])).
Proof.
  intros Hx HL Hg. destruct (labels_ok_spec _ _ _ HL) as [Ht L]. pose proof (hs_sh _ _ Hx) as Sx. pose proof (hs_wf _ _ Hx) as Wx.
  pose proof (hs_sh _ _ Hg) as Sg. unfold sparse_xent_grad_x. cbv zeta.
  change (a_shape (amap exp lx)) with (a_shape lx). rewrite Sx.
  assert (Lt : length (a_data (vecR t)) = n) by (destruct Ht as [[_ ->] | [_ ->]]; simpl; lia). rewrite Lt, Nat.min_id.
  rewrite (all_some_map _ (lab_of t)). 2:{ intros i Hi. apply in_seq in Hi. destruct (L i) as [Q1 Q2]; [lia|]. exact (label_INR _ c i _ Q1 Q2). }
  unfold bind. unfold zip_mut. cbn [tab a_shape]. rewrite Sg.
  assert (C : can_broadcast [n; 1%nat] [n; c] = true) by exact (can_broadcast_set 1 [n; c]).
  rewrite C. f_equal. apply tab_ext. intros i Hi. rewrite aget_tab by exact Hi.
  pose proof (bc_idx_set 1 [n; c] i Hi) as B. simpl set_at in B. pose proof Hi as Hi'. apply pair_bounds in Hi'. destruct Hi' as (r & q & -> & Hr & Hq). simpl nth. simpl in B. rewrite B.
  rewrite (aget_map 0) by (first [exact Wx|rewrite Sx; exact Hi]).
  rewrite nth_error_map. rewrite (nth_error_nth' (seq 0 n) 0%nat) by (rewrite seq_length; exact Hr). rewrite seq_nth by exact Hr. simpl. reflexivity.
Qed.
