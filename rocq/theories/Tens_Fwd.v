(** The arrays computed by the operations of Tens_Model, entry by entry. *)
From Coq Require Import String List Arith ZArith Bool Lia Reals Lra RealField Permutation.
Import ListNotations.
From Verif Require Import Eval_Proofs Array_Model Array_Proofs Array_Sum Array_Fold Arith_Model Arith_Proofs Broadcast_Spec
  Vjp_Spec Vjp_Proofs Arith_Final Reduce_Model Reduce_Spec Reduce_Proofs Shape_Model Shape_Spec Shape_Proofs3
  Dot_Model Dot_Spec Dot_Proofs Softmax_Model Softmax_Spec Softmax_Proofs Softmax_Proofs2
  Graph_Model Eval_Model Grad_Model Scalar_Model Scalar_Spec Tens_Model Tens_Spec.
Local Set Bullet Behavior "Strict Subproofs".
Local Open Scope R_scope.

Lemma hs_wf sh a : has_shape sh a -> wf a.
Proof. intros H. apply has_shape_wf in H. tauto. Qed.
Lemma hs_sh sh a : has_shape sh a -> a_shape a = sh.
Proof. intros H. apply H. Qed.
Lemma hs_tab sh a : has_shape sh a -> a = tab sh (rget a).
Proof. intros H. symmetry. rewrite <- (hs_sh _ _ H). apply tab_aget. eapply hs_wf; eauto. Qed.
Lemma tab_eq sh a (f : list nat -> R) : has_shape sh a -> (forall i, in_bounds sh i -> rget a i = f i) -> a = tab sh f.
Proof. intros H E. rewrite (hs_tab sh a H). apply tab_ext. exact E. Qed.
Lemma has_shape_intro sh a : a_shape a = sh -> wf a -> has_shape sh a.
Proof. intros. apply has_shape_wf. auto. Qed.
#[export] Hint Resolve tab_has_shape hs_wf hs_sh : core.

Lemma nonempty_prod sh : nonempty sh = true <-> prod sh <> 0%nat.
Proof. unfold nonempty. rewrite negb_true_iff, Nat.eqb_neq. tauto. Qed.
Lemma reduces_reducible o g : reduces_to o g = true <-> reducible o g.
Proof.
  unfold reduces_to, reducible. rewrite !andb_true_iff, orb_true_iff, nonempty_prod, Nat.eqb_eq, shape_eqb_ok. tauto.
Qed.

(** ** 0/1 matrices *)
Definition delta (a b : list nat) : R := if shape_eqb a b then 1 else 0.
Lemma delta_eq a : delta a a = 1.
Proof. unfold delta. rewrite (proj2 (shape_eqb_ok a a) eq_refl). reflexivity. Qed.
Lemma delta_ne a b : a <> b -> delta a b = 0.
Proof. intros H. unfold delta. destruct (shape_eqb a b) eqn:E; [apply shape_eqb_ok in E; contradiction|reflexivity]. Qed.
Lemma delta_sym a b : delta a b = delta b a.
Proof.
  unfold delta. destruct (shape_eqb a b) eqn:E, (shape_eqb b a) eqn:E'; auto.
  - apply shape_eqb_ok in E. subst. rewrite (proj2 (shape_eqb_ok b b) eq_refl) in E'. discriminate.
  - apply shape_eqb_ok in E'. subst. rewrite (proj2 (shape_eqb_ok a a) eq_refl) in E. discriminate.
Qed.
Lemma delta_if a b (x : R) : delta a b * x = if shape_eqb a b then x else 0.
Proof. unfold delta. destruct (shape_eqb a b); lra. Qed.
Lemma rsum_ext {I} (l : list I) f g : (forall i, In i l -> f i = g i) -> rsum l f = rsum l g.
Proof. apply (sum_ext 0 Rplus). Qed.
Lemma rsum_idx_ext sh f g : (forall i, in_bounds sh i -> f i = g i) -> rsum (indices sh) f = rsum (indices sh) g.
Proof. intros H. apply rsum_ext. intros i Hi. apply H. apply indices_in. exact Hi. Qed.
Lemma rsum_delta sh k f : in_bounds sh k -> rsum (indices sh) (fun j => delta k j * f j) = f k.
Proof.
  intros H. rewrite (rsum_ext _ _ (fun j => if shape_eqb k j then f j else 0)) by (intros; apply delta_if).
  apply (sum_one 0 1 Rplus Rmult Rminus Ropp RT).
  - apply indices_nodup.
  - apply indices_in. exact H.
  - apply shape_eqb_ok. reflexivity.
  - intros i _ E. apply shape_eqb_ok in E. auto.
Qed.
Lemma rsum_delta_r sh k f : in_bounds sh k -> rsum (indices sh) (fun j => delta j k * f j) = f k.
Proof. intros H. rewrite <- (rsum_delta sh k f H). apply rsum_ext. intros. rewrite delta_sym. reflexivity. Qed.
Lemma rsum_filter sh b f : rsum (filter b (indices sh)) f = rsum (indices sh) (fun i => if b i then f i else 0).
Proof. apply (sum_filter 0 1 Rplus Rmult Rminus Ropp RT). Qed.
Lemma rsum_push sh p k (f : list nat -> R) :
  rsum (filter (fun i => shape_eqb (p i) k) (indices sh)) f = rsum (indices sh) (fun i => delta (p i) k * f i).
Proof. rewrite rsum_filter. apply rsum_ext. intros. rewrite delta_if. reflexivity. Qed.
Lemma rsum_nil f : rsum (indices []) f = f [].
Proof. simpl. lra. Qed.
Lemma rsum_zero {I} (l : list I) f : (forall i, In i l -> f i = 0) -> rsum l f = 0.
Proof. apply (sum_zero 0 1 Rplus Rmult Rminus Ropp RT). Qed.
Lemma rsum_add {I} (l : list I) f g : rsum l (fun i => f i + g i) = rsum l f + rsum l g.
Proof. apply (sum_add 0 1 Rplus Rmult Rminus Ropp RT). Qed.
Lemma rsum_scale {I} (l : list I) c f : rsum l (fun i => c * f i) = c * rsum l f.
Proof. apply (sum_scale 0 1 Rplus Rmult Rminus Ropp RT). Qed.
Lemma rsum_scale_r {I} (l : list I) c f : rsum l (fun i => f i * c) = rsum l f * c.
Proof. apply (sum_scale_r 0 1 Rplus Rmult Rminus Ropp RT). Qed.
Lemma rsum_swap {I J} (l : list I) (m : list J) f :
  rsum l (fun i => rsum m (fun j => f i j)) = rsum m (fun j => rsum l (fun i => f i j)).
Proof. apply (sum_swap 0 1 Rplus Rmult Rminus Ropp RT). Qed.

(** ** Elementwise operations *)
Lemma empty_elem_ok : at_empty_ok 0 empty_elem.
Proof.
  split; intros a W S; unfold empty_elem; rewrite S.
  - unfold wf in W. rewrite S in W. unfold aget. rewrite S. simpl in *. destruct (a_data a); [discriminate|reflexivity].
  - left. reflexivity.
Qed.
Lemma amap_tab (f : R -> R) sh a : has_shape sh a -> amap f a = tab sh (fun i => f (rget a i)).
Proof.
  intros H. apply tab_eq.
  - apply has_shape_intro; [simpl; eapply hs_sh; eauto|apply amap_wf; eapply hs_wf; eauto].
  - intros i Hi. apply (aget_map 0 0); [eapply hs_wf; eauto|]. rewrite (hs_sh _ _ H). exact Hi.
Qed.
Lemma arith_ty_ok a b r : arith_ty a b = Some r -> co_broadcast a b = Some r /\ infer_shape a b = Some r /\ prod r <> 0%nat.
Proof.
  unfold arith_ty. destruct (co_broadcast a b) as [r1|]; [|discriminate]. destruct (infer_shape a b) as [r2|]; [|discriminate].
  destruct (shape_eqb r1 r2) eqn:E; [|discriminate]. destruct (nonempty r1) eqn:N; [|discriminate]. intros H. simpl in H. inv H.
  apply shape_eqb_ok in E. apply nonempty_prod in N. subst. auto.
Qed.
Lemma can_co a : forall b, dims_ok a b = true -> co_dims a b = Some b.
Proof.
  induction a as [|x a IH]; intros [|y b] H; simpl in *; try discriminate; auto.
  apply andb_true_iff in H. destruct H as [H1 H2]. rewrite (IH b H2).
  destruct (x =? y)%nat eqn:E; [apply Nat.eqb_eq in E; subst; reflexivity|]. simpl in H1. rewrite H1. reflexivity.
Qed.
Lemma can_co_broadcast a b : length a = length b -> can_broadcast a b = true -> co_broadcast a b = Some b.
Proof.
  intros L H. unfold can_broadcast in H. apply andb_true_iff in H. destruct H as [_ H]. unfold co_broadcast.
  rewrite L in *. rewrite Nat.sub_diag in *. simpl in *. rewrite (can_co a b H). reflexivity.
Qed.
Lemma cmp_ty_ok a b r : cmp_ty a b = Some r -> co_broadcast a b = Some r /\ prod r <> 0%nat.
Proof.
  unfold cmp_ty. destruct (nonempty a) eqn:Na; [|discriminate]. destruct (nonempty b) eqn:Nb; [|discriminate]. simpl.
  apply nonempty_prod in Na. apply nonempty_prod in Nb.
  destruct (shape_eqb b []) eqn:E1; [apply shape_eqb_ok in E1; subst; intros H; inv H; split; [apply co_broadcast_nil_r|auto]|].
  destruct (shape_eqb a []) eqn:E2; [apply shape_eqb_ok in E2; subst; intros H; inv H; split; [apply co_broadcast_nil_l|auto]|].
  destruct (shape_eqb a b) eqn:E3; [apply shape_eqb_ok in E3; subst; intros H; inv H; split; [apply co_broadcast_self|auto]|].
  destruct (((length a =? length b)%nat && (prod a <? prod b)%nat) && can_broadcast a b) eqn:E4; [|discriminate].
  intros H. inv H. apply andb_true_iff in E4. destruct E4 as [E4 E5]. apply andb_true_iff in E4. destruct E4 as [E4 _].
  apply Nat.eqb_eq in E4. split; [apply can_co_broadcast; auto|auto].
Qed.
Lemma bin_ty_co b s0 s1 r : bin_ty b s0 s1 = Some r -> co_broadcast s0 s1 = Some r.
Proof.
  destruct b; simpl; intros H;
    try (apply arith_ty_ok in H; tauto); try (apply cmp_ty_ok in H; tauto);
    try (unfold same_ty in H; destruct (shape_eqb s0 s1) eqn:E; [|discriminate]; inv H; apply shape_eqb_ok in E; subst; apply co_broadcast_self).
  destruct (shape_eqb s1 [1%nat]); [discriminate|]. apply arith_ty_ok in H; tauto.
Qed.
Definition zip_tab (b : bop) (r s0 s1 : list nat) (x y : arr R) : arr R :=
  tab r (fun i => bin b (rget x (bc_idx s0 i)) (rget y (bc_idx s1 i))).
Lemma pointwise_zip b x y s0 s1 r z : has_shape s0 x -> has_shape s1 y -> a_shape z = r ->
  pointwise 0 (bin b) x y z -> z = zip_tab b r s0 s1 x y.
Proof.
  intros Hx Hy S P. apply (pointwise_tab (bin b) x y z r _ S P). intros i Hi.
  rewrite (hs_sh _ _ Hx), (hs_sh _ _ Hy). reflexivity.
Qed.
Lemma scalar_shape_nonempty s : prod s <> 0%nat -> is_scalar_shape s = shape_eqb s [].
Proof.
  intros P. unfold is_scalar_shape. destruct (shape_eqb s []); [reflexivity|]. simpl.
  destruct (shape_eqb s [0%nat]) eqn:E; [|reflexivity]. apply shape_eqb_ok in E. subst. exfalso. apply P. reflexivity.
Qed.
Lemma cmp_forward_ok b x y s0 s1 r : has_shape s0 x -> has_shape s1 y -> cmp_ty s0 s1 = Some r ->
  cmp_forward (bin b) x y = Some (zip_tab b r s0 s1 x y).
Proof.
  intros Hx Hy H. unfold cmp_ty in H.
  destruct (nonempty s0) eqn:Na; [|discriminate]. destruct (nonempty s1) eqn:Nb; [|discriminate]. simpl in H.
  apply nonempty_prod in Na. apply nonempty_prod in Nb.
  unfold cmp_forward. rewrite (hs_sh _ _ Hx), (hs_sh _ _ Hy). rewrite !scalar_shape_nonempty by auto.
  destruct (shape_eqb s1 []) eqn:E1.
  { apply shape_eqb_ok in E1. subst s1. inv H. rewrite (proj1 empty_elem_ok) by eauto. f_equal.
    rewrite (amap_tab _ r x Hx). apply tab_ext. intros i Hi. rewrite bc_idx_self, bc_idx_nil by exact Hi. reflexivity. }
  destruct (shape_eqb s0 []) eqn:E2.
  { apply shape_eqb_ok in E2. subst s0. inv H. rewrite (proj1 empty_elem_ok) by eauto. f_equal.
    rewrite (amap_tab _ r y Hy). apply tab_ext. intros i Hi. rewrite bc_idx_nil, bc_idx_self by exact Hi. reflexivity. }
  destruct (shape_eqb s0 s1) eqn:E3.
  { apply shape_eqb_ok in E3. subst s1. inv H. rewrite Nat.eqb_refl, Nat.ltb_irrefl. simpl.
    f_equal. apply tab_ext. intros i Hi. rewrite bc_idx_self by exact Hi. reflexivity. }
  destruct (((length s0 =? length s1)%nat && (prod s0 <? prod s1)%nat) && can_broadcast s0 s1) eqn:E4; [|discriminate].
  inv H. apply andb_true_iff in E4. destruct E4 as [E4 E5]. apply andb_true_iff in E4. destruct E4 as [E4 E6].
  rewrite E4, E6. simpl. unfold broadcast. rewrite (hs_sh _ _ Hx), E5. f_equal. apply tab_ext. intros i Hi.
  rewrite (aget_tab 0) by exact Hi. rewrite (bc_idx_self r i) by exact Hi. reflexivity.
Qed.
Lemma bin_arr_ok b x y s0 s1 r : has_shape s0 x -> has_shape s1 y -> bin_ty b s0 s1 = Some r ->
  bin_arr b x y = Some (zip_tab b r s0 s1 x y).
Proof.
  intros Hx Hy H. pose proof (bin_ty_co _ _ _ _ H) as C. pose proof C as C'. rewrite <- (hs_sh _ _ Hx), <- (hs_sh _ _ Hy) in C'.
  assert (Wx : wf x) by eauto. assert (Wy : wf y) by eauto.
  destruct b; simpl in H |- *; try (apply cmp_forward_ok; auto; fail).
  - apply arith_ty_ok in H. destruct (bin_forward_ok 0 empty_elem empty_elem_ok Rplus x y r Rplus_comm Wx Wy C') as (z & E & S & P); [tauto|].
    unfold add_forward. rewrite E. f_equal. eapply (pointwise_zip Add); eauto.
  - apply arith_ty_ok in H. destruct (sub_forward_ok 0 Rminus empty_elem empty_elem_ok x y r Wx Wy C') as (z & E & S & P).
    rewrite E. f_equal. eapply (pointwise_zip Sub); eauto.
  - apply arith_ty_ok in H. destruct (bin_forward_ok 0 empty_elem empty_elem_ok Rmult x y r Rmult_comm Wx Wy C') as (z & E & S & P); [tauto|].
    unfold mul_forward. rewrite E. f_equal. eapply (pointwise_zip Mul); eauto.
  - destruct (shape_eqb s1 [1%nat]) eqn:E1; [discriminate|]. apply arith_ty_ok in H.
    destruct (div_forward_ok 0 1 Rmult Rdiv empty_elem empty_elem_ok x y r) as (z & E & S & P); auto.
    + intros a b. unfold Rdiv. ring.
    + tauto.
    + rewrite (hs_sh _ _ Hy). intros ->. rewrite (proj2 (shape_eqb_ok _ _) eq_refl) in E1. discriminate.
    + rewrite E. f_equal. eapply (pointwise_zip Div); eauto.
  - unfold same_ty in H. destruct (shape_eqb s0 s1) eqn:E1; [|discriminate]. apply shape_eqb_ok in E1. inv H.
    unfold zip_bc. rewrite C'. f_equal. apply tab_ext. intros i Hi. rewrite (hs_sh _ _ Hx), (hs_sh _ _ Hy). reflexivity.
  - unfold same_ty in H. destruct (shape_eqb s0 s1) eqn:E1; [|discriminate]. apply shape_eqb_ok in E1. inv H.
    unfold zip_mut. rewrite (hs_sh _ _ Hx), (hs_sh _ _ Hy), can_broadcast_refl. f_equal. apply tab_ext. intros i Hi.
    rewrite !bc_idx_self by exact Hi. reflexivity.
Qed.

(** ** Reductions and broadcasts *)
Lemma dims_shape_vec sh : dims (shape_vec sh) = Some sh.
Proof.
  unfold dims, shape_vec.
  assert (E : forallb (fun z => (0 <=? z)%Z) (map Z.of_nat sh) = true).
  { apply forallb_forall. intros z Hz. apply in_map_iff in Hz. destruct Hz as (n & <- & _). apply Z.leb_le. lia. }
  rewrite E. f_equal. rewrite map_map. rewrite <- map_id. apply map_ext. intros n. apply Nat2Z.id.
Qed.
Definition push (p : list nat -> list nat) (sh out : list nat) (x : arr R) : arr R :=
  tab out (fun k => rsum (indices sh) (fun i => delta (p i) k * rget x i)).
Definition pullr (p : list nat -> list nat) (out : list nat) (x : arr R) : arr R :=
  tab out (fun i => rget x (p i)).
Lemma sums_push p sh out x y : has_shape sh x -> has_shape out y -> sums_along 0 Rplus p x y -> y = push p sh out x.
Proof.
  intros Hx Hy S. apply tab_eq; auto. intros k Hk.
  assert (Hk' : in_bounds (a_shape y) k) by (rewrite (hs_sh _ _ Hy); exact Hk).
  specialize (S k Hk'). unfold get, idx_eqb in S. rewrite S, (hs_sh _ _ Hx). apply rsum_push.
Qed.
Lemma maybe_reduce_push o g x : has_shape g x -> reduces_to o g = true -> maybe_reduce 0 Rplus o x = Some (push (bc_idx o) g o x).
Proof.
  intros Hx H. apply reduces_reducible in H. rewrite <- (hs_sh _ _ Hx) in H.
  destruct (maybe_reduce_ok 0 1 Rplus Rmult Rminus Ropp RT o x) as (y & E & W & S & A); eauto.
  rewrite E. f_equal. apply sums_push; auto. apply has_shape_intro; auto.
Qed.
Lemma maybe_broadcast_pull s t x : has_shape s x -> reduces_to s t = true -> maybe_broadcast 0 t x = Some (pullr (bc_idx s) t x).
Proof.
  intros Hx H. apply reduces_reducible in H. destruct (maybe_broadcast_ok s x t Hx H) as (y & E & Hy & G).
  rewrite E. f_equal. apply tab_eq; auto.
Qed.
Lemma sum_all_push sh x : has_shape sh x -> sum_all 0 Rplus x = push (fun _ => []) sh [] x.
Proof.
  intros H. unfold sum_all, push, tab. simpl. f_equal. f_equal.
  rewrite (sum_list 0 1 Rplus Rmult Rminus Ropp RT). rewrite Rplus_0_l. rewrite (data_map 0) by eauto.
  rewrite (hs_sh _ _ H). rewrite (sum_map 0 Rplus). apply rsum_ext. intros. rewrite delta_eq. ring.
Qed.
Lemma sum_all_grad_pull sh g : has_shape [] g -> full sh (hd 0 (a_data g)) = pullr (fun _ => []) sh g.
Proof.
  intros H. unfold full, pullr. apply tab_ext. intros i _. unfold aget. rewrite (hs_sh _ _ H). simpl.
  destruct (a_data g); reflexivity.
Qed.
Lemma distinctb_ok l : distinctb l = true -> NoDup l.
Proof.
  induction l as [|k l IH]; simpl; intros H; constructor.
  - apply andb_true_iff in H. destruct H as [H _]. apply negb_true_iff in H. intros I. apply memb_in in I. congruence.
  - apply IH. apply andb_true_iff in H. tauto.
Qed.
Lemma axes_of_ok n axes ax : axes_of n axes = Some ax -> names_axes n axes ax.
Proof.
  unfold axes_of. destruct (normalize_axes n axes) as [l|] eqn:E; [|discriminate].
  destruct (forallb (fun k => (k <? n)%nat) l) eqn:F; [|discriminate]. destruct (distinctb l) eqn:D; [|discriminate]. simpl.
  intros H. inv H. split; [apply distinctb_ok; auto|]. rewrite forallb_forall in F. clear D.
  revert ax E F. induction axes as [|a axes IH]; intros ax E F; simpl in E; [inv E; constructor|].
  destruct (Z.ltb_spec a 0) as [Ha|Ha].
  - destruct (Z.ltb_spec (Z.of_nat n + a) 0) as [Hb|Hb]; [discriminate|].
    destruct (normalize_axes n axes) as [l|]; [|discriminate]. inv E. constructor.
    + assert (F' := F _ (or_introl eq_refl)). apply Nat.ltb_lt in F'. split; [auto|]. right. lia.
    + apply IH; auto. intros. apply F. simpl. auto.
  - destruct (Z.ltb_spec a 0) as [Hb|Hb]; [lia|].
    destruct (normalize_axes n axes) as [l|]; [|discriminate]. inv E. constructor.
    + assert (F' := F _ (or_introl eq_refl)). apply Nat.ltb_lt in F'. split; [auto|]. left. lia.
    + apply IH; auto. intros. apply F. simpl. auto.
Qed.
Lemma reduced_nil keep l : reduced_shape keep [] l = l /\ reduced_index keep [] l = l.
Proof. destruct keep; simpl; split; try apply fill_nil; apply drop_nil. Qed.
Lemma reduce_push keep axes ax sh x : has_shape sh x -> sh <> [0%nat] -> axes_of (length sh) axes = Some ax ->
  reduce 0 Rplus 0 axes keep false x = Some (push (reduced_index keep ax) sh (reduced_shape keep ax sh) x).
Proof.
  intros Hx N A. apply axes_of_ok in A. rewrite <- (hs_sh _ _ Hx) in N, A.
  assert (R1 : forall a b c : R, a + (b + c) = a + b + c) by (intros; ring).
  assert (R2 : forall a b : R, a + b = b + a) by (intros; ring).
  assert (R3 : 0 + 0 = 0) by ring.
  destruct (reduce_ok 0 0 Rplus R1 R2 R3 keep axes ax x) as (y & E & W & S & F1 & F2); eauto.
  rewrite E. f_equal. rewrite (hs_sh _ _ Hx) in S. destruct ax as [|k ax].
  - rewrite F2 by reflexivity. clear - Hx. apply tab_eq; [rewrite (proj1 (reduced_nil keep sh)); exact Hx|].
    intros k Hk. rewrite (proj1 (reduced_nil keep sh)) in Hk.
    rewrite (rsum_ext _ _ (fun i => delta i k * rget x i)) by (intros; rewrite (proj2 (reduced_nil keep i)); reflexivity).
    symmetry. apply rsum_delta_r. exact Hk.
  - apply sums_push; auto; [apply has_shape_intro; auto|]. intros j Hj. apply F1; [discriminate|]. exact Hj.
Qed.
Lemma reduce_grad_pull keep axes ax sh g : has_shape (reduced_shape keep ax sh) g -> sh <> [0%nat] ->
  axes_of (length sh) axes = Some ax ->
  reduce_grad 0 (negb keep) false axes sh g = Some (pullr (reduced_index keep ax) sh g).
Proof.
  intros Hg N A. apply axes_of_ok in A. destruct (reduce_grad_ok 0 keep axes ax sh g) as (y & E & W & S & G); eauto.
  rewrite E. f_equal. apply tab_eq; [apply has_shape_intro; auto|]. exact G.
Qed.

(** ** Reshaping and transposing *)
Definition reindex (sh out i : list nat) : list nat := nth (ravel out i) (indices sh) [].
Lemma reindex_in sh out i : prod sh = prod out -> in_bounds out i ->
  in_bounds sh (reindex sh out i) /\ ravel sh (reindex sh out i) = ravel out i.
Proof.
  intros P H. apply ravel_lt in H. unfold reindex. rewrite <- P in H. rewrite <- indices_length in H. split.
  - apply indices_in. apply nth_In. exact H.
  - pose proof (ravel_indices sh) as E. apply (f_equal (fun l => nth (ravel out i) l 0%nat)) in E.
    rewrite seq_nth in E by (rewrite <- indices_length; exact H). simpl in E.
    rewrite (nth_indep _ 0%nat (ravel sh [])) in E by (rewrite map_length; exact H). rewrite map_nth in E. exact E.
Qed.
Lemma reindex_back sh out i : prod sh = prod out -> in_bounds out i -> reindex out sh (reindex sh out i) = i.
Proof.
  intros P H. destruct (reindex_in sh out i P H) as [A B].
  destruct (reindex_in out sh (reindex sh out i) (eq_sym P) A) as [C D]. apply (ravel_inj out); auto. congruence.
Qed.
Lemma reshape_pull l sh out x : has_shape sh x -> reshape_dims (prod sh) l l = Some out -> prod sh = prod out ->
  reshape l x = Some (pullr (reindex sh out) out x).
Proof.
  intros Hx E P. assert (W : length (a_data x) = prod sh) by apply Hx.
  unfold reshape. rewrite W, E. simpl. unfold into_shape. rewrite (hs_sh _ _ Hx), P, Nat.eqb_refl. f_equal.
  apply tab_eq; [split; [reflexivity|simpl; congruence]|]. intros i Hi. unfold aget. simpl. rewrite (hs_sh _ _ Hx).
  destruct (reindex_in sh out i P Hi) as [_ ->]. reflexivity.
Qed.
Lemma plain_indices_ok l p : plain_indices l = Some p -> l = map Z.of_nat p.
Proof.
  revert p. induction l as [|z l IH]; intros p H; simpl in H; [inv H; reflexivity|].
  destruct (Z.ltb_spec z 0); [discriminate|]. destruct (plain_indices l) as [r|]; [|discriminate]. inv H.
  simpl. rewrite (IH r eq_refl). f_equal. lia.
Qed.
Lemma is_perm_perm p : forallb (fun k => (k <? length p)%nat) p = true -> is_perm p = true -> Permutation p (seq 0 (length p)).
Proof.
  intros F P. unfold is_perm in P. rewrite forallb_forall in P, F.
  assert (I : incl (seq 0 (length p)) p).
  { intros k Hk. specialize (P k Hk). apply existsb_exists in P. destruct P as (j & Hj & E). apply Nat.eqb_eq in E. subst. exact Hj. }
  symmetry. apply NoDup_Permutation_bis; [apply seq_NoDup|rewrite seq_length; lia|exact I].
Qed.
Lemma perm_of_ok n inv perm q : perm_of n inv perm = Some q ->
  exists r, inverses n q r /\ is_perm q = true /\ perm_of n (negb inv) perm = Some r /\
    (forall x : arr R, length (a_shape x) = n -> transpose 0 inv perm x = Some (permute 0 q x)).
Proof.
  unfold perm_of. destruct (Nat.eqb_spec (length perm) n) as [L|]; [|discriminate].
  destruct (plain_indices perm) as [p|] eqn:E; [|discriminate]. pose proof (plain_indices_ok _ _ E) as EP.
  assert (L' : length p = n) by (subst perm; rewrite map_length in L; exact L).
  destruct (forallb (fun k => (k <? n)%nat) p) eqn:F; [|discriminate]. destruct (is_perm p) eqn:P; [|discriminate]. simpl.
  rewrite <- L' in F. pose proof (is_perm_perm p F P) as PP. destruct (invert_ok p PP) as (r & Er & IV & Pr). rewrite L' in IV.
  destruct inv; simpl.
  - rewrite Er. intros H. inv H. exists p. split; [apply inverses_sym; exact IV|]. split; [exact Pr|]. split; [reflexivity|].
    intros x Hx. unfold transpose. rewrite Hx, map_length, Nat.eqb_refl, E. simpl. rewrite Er. simpl. rewrite Pr. reflexivity.
  - intros H. inv H. exists r. split; [exact IV|]. split; [exact P|]. split; [exact Er|].
    intros x Hx. unfold transpose. rewrite Hx, map_length, Nat.eqb_refl, E. simpl. rewrite P. reflexivity.
Qed.
Lemma transpose_pull inv perm q sh x : has_shape sh x -> perm_of (length sh) inv perm = Some q ->
  exists r, inverses (length sh) q r /\ perm_of (length sh) (negb inv) perm = Some r /\
    transpose 0 inv perm x = Some (pullr (pull r) (pull q sh) x).
Proof.
  intros Hx H. destruct (perm_of_ok _ _ _ _ H) as (r & IV & _ & Hr & T). exists r. split; [exact IV|]. split; [exact Hr|].
  rewrite T by (rewrite (hs_sh _ _ Hx); reflexivity). f_equal.
  rewrite (permute_ok 0 (length sh) q r x IV) by (rewrite (hs_sh _ _ Hx); reflexivity). rewrite (hs_sh _ _ Hx). reflexivity.
Qed.

(** ** Sums, products, softmax *)
Lemma arrays_map l : arrays (map TA l) = Some l.
Proof. induction l as [|a l IH]; simpl; [reflexivity|]. unfold arrays in *. rewrite IH. reflexivity. Qed.
Lemma axis_of_ok n z k : axis_of n z = Some k -> names_axis n z k.
Proof.
  unfold axis_of. destruct (Z.ltb_spec z 0) as [H|H].
  - destruct (Z.ltb_spec (Z.of_nat n + z) 0); [discriminate|]. destruct (Nat.ltb_spec (Z.to_nat (Z.of_nat n + z)) n); [|discriminate].
    intros E. inv E. split; [auto|]. right. lia.
  - destruct (Z.ltb_spec z 0); [lia|]. destruct (Nat.ltb_spec (Z.to_nat z) n); [|discriminate].
    intros E. inv E. split; [auto|]. left. lia.
Qed.
