(** Groups of elements, and the values of the composite operations. *)
From Coq Require Import String List Arith ZArith NArith Bool Lia Reals Lra Permutation Sorted.
Import ListNotations.
From Verif Require Import Graph_Model Eval_Model Eval_Spec Eval_Proofs Graph_Proofs Grad_Model Grad_Spec
  Scalar_Model Scalar_Spec Scalar_Rules Scalar_Proofs.
From Verif Require Import Array_Model Array_Proofs Array_Sum Arith_Model Arith_Proofs Arith_Final Vjp_Spec Vjp_Proofs
  Reduce_Model Reduce_Spec Reduce_Proofs Mean_Model Shape_Model Shape_Spec Shape_Proofs3
  Dot_Model Dot_Proofs Softmax_Model Softmax_Spec Softmax_Proofs Softmax_Proofs2 Softmax_Proofs3
  Tens_Model Tens_Spec Tens_Fwd Tens_Fwd2 Tens_Build Tens_Rules Tens_Rules5 Tens_Ops Tens_Comp Comp_Model Comp_Spec.
Local Set Bullet Behavior "Strict Subproofs".
Local Open Scope R_scope.

(** ** Groups *)
Lemma fibre_group keep ax sh i : fibre keep ax sh i = group_at keep ax sh i.
Proof. reflexivity. Qed.
Lemma fill_same k j sh : in_bounds (set_at k 1%nat sh) j -> (k < length sh)%nat -> set_at k 0%nat j = j.
Proof.
  revert sh j. induction k as [|k IH]; intros [|d sh] j H Hk; simpl in Hk; try lia; simpl in H; inv H; simpl.
  - f_equal. lia.
  - f_equal. eapply IH; eauto. lia.
Qed.
Lemma set_set {X} k (a b : X) l : set_at k a (set_at k b l) = set_at k a l.
Proof. revert l. induction k; intros [|x l]; simpl; auto. f_equal. auto. Qed.
Lemma set_nth_other k m (v : nat) l : k <> m -> nth m (set_at k v l) 0%nat = nth m l 0%nat.
Proof. revert m l. induction k; intros [|m] [|x l] H; simpl; auto; try lia. Qed.
Lemma count_fill ax : forall sh i, NoDup ax -> List.Forall (fun k => (k < length sh)%nat) ax -> in_bounds (fill_axes 1 ax sh) i ->
  rsum (indices sh) (fun j => delta (fill_axes 0 ax j) i) = INR (group_size ax sh).
Proof.
  induction ax as [|k ax IH]; intros sh i ND HF Hi.
  - unfold group_size; simpl. rewrite fill_nil in Hi. rewrite (rsum_idx_ext sh _ (fun j => delta j i * 1)); [|intros; rewrite fill_nil; ring].
    rewrite rsum_delta_r by exact Hi. reflexivity.
  - inv ND. inv HF. rewrite fill_set in Hi. rewrite (line_split k) by assumption.
    assert (L : length (set_at k 1%nat sh) = length sh) by (clear; revert k; induction sh; intros [|k]; simpl; auto).
    rewrite (rsum_idx_ext _ _ (fun j => INR (nth k sh 0%nat) * delta (fill_axes 0 ax j) i)).
    + rewrite rsum_scale, IH; auto.
      * rewrite <- mult_INR. f_equal. unfold group_size. cbn [map prod fold_right]. f_equal. unfold prod. f_equal. apply map_ext_in.
        intros m Hm. apply set_nth_other. intros ->. contradiction.
      * rewrite L. assumption.
    + intros j Hj. rewrite (rsum_ext _ _ (fun _ => delta (fill_axes 0 ax j) i)).
      * generalize (delta (fill_axes 0 ax j) i). intros c. assert (Q : forall a n, rsum (seq a n) (fun _ : nat => c) = INR n * c).
        { intros a n. revert a. induction n as [|n IHn]; intros a; [simpl; ring|]. rewrite S_INR. simpl. rewrite IHn. ring. }
        apply Q.
      * intros l _. f_equal. rewrite fill_set, set_set. erewrite fill_same by eauto. reflexivity.
Qed.
Lemma same_group ax sh j j' : NoDup ax -> List.Forall (fun k => (k < length sh)%nat) ax -> in_bounds sh j -> in_bounds sh j' ->
  fill_axes 0 ax j = fill_axes 0 ax j' <-> drop_axes ax j = drop_axes ax j'.
Proof.
  intros ND HF Hj Hj'. destruct (desc_sort ax ND) as [SS PM]. pose proof (Permutation_Forall PM HF) as HF'.
  pose proof (ravel_fill _ _ SS HF' sh j eq_refl (in_bounds_length _ _ Hj)) as R1. pose proof (ravel_fill _ _ SS HF' sh j' eq_refl (in_bounds_length _ _ Hj')) as R2.
  rewrite <- (fill_perm 1 _ _ sh PM), <- (fill_perm 0 _ _ j PM), <- (drop_perm _ _ sh PM), <- (drop_perm _ _ j PM) in R1.
  rewrite <- (fill_perm 1 _ _ sh PM), <- (fill_perm 0 _ _ j' PM), <- (drop_perm _ _ sh PM), <- (drop_perm _ _ j' PM) in R2.
  split; intros E.
  - apply (ravel_inj (drop_axes ax sh)).
    + apply (reduced_index_in false ax sh j ND HF Hj).
    + apply (reduced_index_in false ax sh j' ND HF Hj').
    + rewrite <- R1, <- R2, E. reflexivity.
  - apply (ravel_inj (fill_axes 1 ax sh)).
    + apply (reduced_index_in true ax sh j ND HF Hj).
    + apply (reduced_index_in true ax sh j' ND HF Hj').
    + rewrite R1, R2, E. reflexivity.
Qed.
Lemma filter_same {X} (f g : X -> bool) l : (forall a, In a l -> f a = g a) -> filter f l = filter g l.
Proof. induction l as [|a l IH]; intros H; simpl; auto. rewrite (H a) by (simpl; auto). rewrite IH by (intros; apply H; simpl; auto). reflexivity. Qed.
(** The group of a position is the same whether the reduced axes are kept or not. *)
Lemma group_same keep ax sh j : NoDup ax -> List.Forall (fun k => (k < length sh)%nat) ax -> in_bounds sh j ->
  group_at keep ax sh (reduced_index keep ax j) = group_at true ax sh (fill_axes 0 ax j).
Proof.
  intros ND HF Hj. destruct keep; [reflexivity|]. apply filter_same. intros j' Hj'. apply indices_in in Hj'. simpl.
  pose proof (same_group ax sh j' j ND HF Hj' Hj) as Q.
  destruct (shape_eqb (drop_axes ax j') (drop_axes ax j)) eqn:E1; destruct (shape_eqb (fill_axes 0 ax j') (fill_axes 0 ax j)) eqn:E2; auto; exfalso.
  - apply shape_eqb_ok in E1. apply Q in E1. apply shape_eqb_ok in E1. congruence.
  - apply shape_eqb_ok in E2. apply Q in E2. apply shape_eqb_ok in E2. congruence.
Qed.
Lemma rsum_ones {I} (l : list I) : rsum l (fun _ => 1) = INR (length l).
Proof. induction l as [|a l IH]; [reflexivity|]. cbn [length]. rewrite S_INR, <- IH. simpl. ring. Qed.
Lemma group_count keep axes ax sh i : axes_of (length sh) axes = Some ax -> nonempty sh = true -> in_bounds (reduced_shape keep ax sh) i ->
  length (group_at keep ax sh i) = group_size ax sh.
Proof.
  intros HA NE Hi. destruct (axes_bound _ _ _ HA) as (HF & _ & ND). destruct (reduced_onto keep axes ax sh i HA NE Hi) as (j & Hj & <-).
  rewrite group_same by auto. apply INR_eq. rewrite <- rsum_ones. change (group_at true ax sh (fill_axes 0 ax j)) with (fibre true ax sh (fill_axes 0 ax j)). rewrite rsum_fibre.
  rewrite (rsum_idx_ext sh _ (fun j' => delta (fill_axes 0 ax j') (fill_axes 0 ax j))) by (intros; simpl; ring).
  apply count_fill; auto. apply (reduced_index_in true ax sh j ND HF Hj).
Qed.
Lemma rsum_list {I} (l : list I) f : rsum l f = fold_right Rplus 0 (map f l).
Proof. induction l as [|a l IH]; [reflexivity|]. simpl. rewrite <- IH. reflexivity. Qed.

(** ** Means *)
Lemma mean_axes_spec axes sh ax : mean_axes axes sh = Some ax ->
  axes_of (length sh) axes = Some ax /\ nonempty sh = true /\ ax <> [] /\ (N.of_nat (group_size ax sh) <= 2 ^ 24)%N.
Proof.
  unfold mean_axes. destruct (axes_of (length sh) axes) as [a|] eqn:E; [|discriminate].
  destruct (nonempty sh) eqn:NE; [|discriminate]. destruct (negb (length axes =? 0)%nat) eqn:EL; [|discriminate].
  destruct (N.leb_spec (N.of_nat (group_size a sh)) (2 ^ 24)) as [L|]; [|discriminate]. intros H. cbn [andb] in H. inv H.
  repeat split; auto. eapply axes_named; eauto.
Qed.
Lemma mean_at keep axes ax sh x i : mean_axes axes sh = Some ax -> has_shape sh x -> in_bounds (reduced_shape keep ax sh) i ->
  rget (mean_of keep ax sh x) i = avg (map (rget x) (group_at keep ax sh i)).
Proof.
  intros HM Hx Hi. apply mean_axes_spec in HM. destruct HM as (HA & NE & Hne & _). unfold mean_of. rewrite aget_tab by exact Hi.
  unfold avg. rewrite map_length. rewrite (group_count keep axes ax) by auto. rewrite <- rsum_list.
  change (group_at keep ax sh i) with (fibre keep ax sh i). rewrite rsum_fibre. unfold Rdiv.
  rewrite Rmult_comm. rewrite <- rsum_scale. apply rsum_ext. intros; unfold Rdiv; ring.
Qed.
Lemma mean_ety keep axes ax sh ts tout tgy env e1 e2 : mean_axes axes sh = Some ax ->
  ety ts tout tgy env e1 = Some (TyA sh) -> ety ts tout tgy env e2 = Some (TyI axes) ->
  ety ts tout tgy env (mean_expr keep e1 e2) = Some (TyA (reduced_shape keep ax sh)).
Proof.
  intros HM E1 E2. apply mean_axes_spec in HM. destruct HM as (HA & NE & _ & L). cbn [ety mean_expr]. rewrite E1, E2. unfold ety_op. cbn [op_ty].
  rewrite HA, NE. apply N.leb_le in L. rewrite L. reflexivity.
Qed.
Lemma mean_eeval keep axes ax sh vs vo vg env e1 e2 x : mean_axes axes sh = Some ax -> has_shape sh x ->
  eeval vs vo vg env e1 = Some (TA x) -> eeval vs vo vg env e2 = Some (TI axes) ->
  eeval vs vo vg env (mean_expr keep e1 e2) = Some (TA (mean_of keep ax sh x)).
Proof.
  intros HM Hx E1 E2. apply mean_axes_spec in HM. destruct HM as (HA & NE & Hne & L). cbn [eeval mean_expr]. rewrite E1, E2. cbn [tcompute].
  rewrite (reduce_mean_ok keep axes ax sh) by auto. reflexivity.
Qed.
Lemma mean_shape keep ax sh x : has_shape (reduced_shape keep ax sh) (mean_of keep ax sh x).
Proof. apply tab_has_shape. Qed.
Lemma mean_fit axes sh : (exists ax, mean_axes axes sh = Some ax) -> negb (length axes =? 0)%nat = true.
Proof.
  intros (ax & H). unfold mean_axes in H. destruct (axes_of (length sh) axes); [|discriminate].
  destruct (nonempty sh); [|discriminate]. destruct (negb (length axes =? 0)%nat); [auto|discriminate].
Qed.

(** ** Broadcasting a kept mean against the array *)
Lemma co_dims_wide a : forall b, dims_ok a b = true -> co_dims b a = Some b.
Proof.
  induction a as [|x a IH]; intros [|y b] H; simpl in H |- *; try discriminate; auto.
  apply andb_prop in H. destruct H as [H1 H2]. rewrite (IH b H2).
  apply orb_prop in H1. destruct H1 as [H1|H1]; apply Nat.eqb_eq in H1; subst.
  - rewrite Nat.eqb_refl. reflexivity.
  - destruct (y =? 1)%nat eqn:E; [apply Nat.eqb_eq in E; subst; reflexivity|reflexivity].
Qed.
Lemma arith_ty_wide a sh : length a = length sh -> sh <> [] -> nonempty sh = true -> dims_ok a sh = true -> arith_ty sh a = Some sh.
Proof.
  intros L HN NE HD. unfold arith_ty, co_broadcast. rewrite L, Nat.sub_diag. cbn [skipn firstn app]. rewrite (co_dims_wide a sh HD).
  pose proof NE as NE2. apply nonempty_prod in NE2.
  assert (Hm : forall a sh, dims_ok a sh = true -> prod sh <> 0%nat -> map2 Nat.max sh a = sh /\ prod a <> 0%nat).
  { clear. induction a as [|x a IH]; intros [|y sh] H P; simpl in H; try discriminate; [split; auto|].
    apply andb_prop in H. destruct H as [H1 H2]. change (prod (y :: sh)) with (y * prod sh)%nat in P.
    destruct (IH sh H2) as [I1 I2]; [intros Z; rewrite Z in P; lia|]. cbn [map2]. rewrite I1. change (prod (x :: a)) with (x * prod a)%nat.
    assert (y <> 0%nat) by (intros ->; lia).
    apply orb_prop in H1. destruct H1 as [H1|H1]; apply Nat.eqb_eq in H1; subst; split; try (apply Nat.neq_mul_0; split; auto; lia); f_equal; lia. }
  destruct (Hm a sh HD NE2) as [M1 M2].
  unfold infer_shape. rewrite !scalar_shape_nonempty by assumption.
  assert (Q : forall l, l <> [] -> shape_eqb l [] = false) by (intros [|]; [congruence|reflexivity]).
  rewrite (Q sh HN), (Q a) by (destruct a; [destruct sh; [congruence|discriminate]|discriminate]). cbn [negb andb].
  rewrite L, Nat.eqb_refl, M1. rewrite (proj2 (shape_eqb_ok sh sh) eq_refl), NE. reflexivity.
Qed.
Lemma mean_axes_rank axes sh ax : mean_axes axes sh = Some ax -> sh <> [].
Proof.
  intros H. apply mean_axes_spec in H. destruct H as (HA & _ & Hne & _). destruct (axes_bound _ _ _ HA) as (HF & _ & _).
  destruct ax as [|k ax]; [congruence|]. inv HF. destruct sh; [simpl in *; lia|discriminate].
Qed.
Lemma arith_ty_fill axes ax sh : mean_axes axes sh = Some ax -> arith_ty sh (fill_axes 1 ax sh) = Some sh.
Proof.
  intros H. apply arith_ty_wide; [apply fill_length|eapply mean_axes_rank; eauto| |].
  - apply mean_axes_spec in H. tauto.
  - pose proof (can_broadcast_fill ax sh) as Q. unfold can_broadcast in Q. rewrite fill_length, Nat.sub_diag in Q. apply andb_prop in Q. tauto.
Qed.
Lemma arith_ty_self sh : nonempty sh = true -> arith_ty sh sh = Some sh.
Proof.
  intros NE. destruct sh as [|d sh]; [reflexivity|]. apply arith_ty_wide; auto; [discriminate|].
  generalize (d :: sh). intros l. induction l as [|x l IH]; simpl; auto. rewrite Nat.eqb_refl. auto.
Qed.
Lemma arith_ty_scalar sh : nonempty sh = true -> arith_ty sh [] = Some sh /\ arith_ty [] sh = Some sh.
Proof.
  intros NE. pose proof NE as P. apply nonempty_prod in P. unfold arith_ty. rewrite co_broadcast_nil_r, co_broadcast_nil_l. unfold infer_shape.
  destruct sh as [|d sh]; [split; reflexivity|].
  rewrite (scalar_shape_nonempty (d :: sh)) by assumption. change (is_scalar_shape []) with true. change (shape_eqb (d :: sh) []) with false. cbn [negb andb].
  rewrite (proj2 (shape_eqb_ok (d :: sh) (d :: sh)) eq_refl), NE. split; reflexivity.
Qed.

(** ** Expressions that are well formed and have a given value *)
Section Good.
Variables (ts : list ty) (tout tgy : ty) (vs : list tv) (vo vg : tv) (D : Prop).
Record good (tenv : list ty) (ve : list tv) (e : expr) (sh : list nat) (x : arr R) : Prop := {
  g_ty : ety ts tout tgy tenv e = Some (TyA sh);
  g_sh : has_shape sh x;
  g_ev : eeval vs vo vg ve e = Some (TA x);
  g_fit : efit ts tout tgy tenv e = true;
  g_dom : D -> edom vs vo vg ve e }.
Lemma good_eq tenv ve e sh x y : x = y -> good tenv ve e sh x -> good tenv ve e sh y.
Proof. intros ->. auto. Qed.
Lemma good_in tenv ve i sh x : nth_error ts i = Some (TyA sh) -> nth_error vs i = Some (TA x) -> has_shape sh x -> good tenv ve (EIn i) sh x.
Proof. intros A B C. constructor; simpl; auto. Qed.
Lemma good_var tenv ve i sh x : nth_error tenv i = Some (TyA sh) -> nth_error ve i = Some (TA x) -> has_shape sh x -> good tenv ve (EVar i) sh x.
Proof. intros A B C. constructor; simpl; auto. Qed.
Lemma good_scalar tenv ve r : good tenv ve (EScalar r) [] (Arr [] [r]).
Proof. constructor; simpl; auto. Qed.
Lemma good_un tenv ve u e sh x : good tenv ve e sh x -> nonempty sh = true -> divides u = false -> (D -> List.Forall (un_dom u) (a_data x)) ->
  good tenv ve (EUn u e) sh (amap (un u) x).
Proof.
  intros [T S V F G] NE HD HU. constructor.
  - cbn [ety]. rewrite T. reflexivity.
  - rewrite (amap_tab _ sh) by exact S. apply tab_has_shape.
  - cbn [eeval]. rewrite V. reflexivity.
  - cbn [efitb]. rewrite F, T. cbn [op_fit]. rewrite NE, HD. reflexivity.
  - intros d. cbn [edomb]. split; auto. intros v Hv. rewrite V in Hv. inv Hv. right. split; [reflexivity|]. exact (HU d).
Qed.
Lemma good_bin tenv ve b e1 e2 s0 s1 r x y : good tenv ve e1 s0 x -> good tenv ve e2 s1 y -> bin_ty b s0 s1 = Some r ->
  op_fit (TBin b) [TyA s0; TyA s1] = true ->
  (D -> forall i, in_bounds r i -> bin_dom b (rget x (bc_idx s0 i)) (rget y (bc_idx s1 i))) ->
  good tenv ve (EBin b e1 e2) r (zip_tab b r s0 s1 x y).
Proof.
  intros [T1 S1 V1 F1 G1] [T2 S2 V2 F2 G2] HB HF HD. constructor.
  - cbn [ety]. rewrite T1, T2. cbn [op_ty]. rewrite HB. reflexivity.
  - apply zip_tab_shape.
  - cbn [eeval]. rewrite V1, V2. cbn [tcompute]. rewrite (bin_arr_ok b x y s0 s1 r) by auto. reflexivity.
  - cbn [efitb]. rewrite F1, F2, T1, T2. exact HF.
  - intros d. cbn [edomb]. repeat split; auto. intros v1 v2 Hv1 Hv2. rewrite V1 in Hv1. rewrite V2 in Hv2. inv Hv1. inv Hv2. right. split; [reflexivity|].
    intros r' i Hr Hi. rewrite (hs_sh _ _ S1), (hs_sh _ _ S2) in *. rewrite (bin_ty_co _ _ _ _ HB) in Hr. inv Hr. apply HD; auto.
Qed.
Lemma good_mean tenv ve keep e1 e2 sh axes ax x : good tenv ve e1 sh x -> mean_axes axes sh = Some ax ->
  ety ts tout tgy tenv e2 = Some (TyI axes) -> eeval vs vo vg ve e2 = Some (TI axes) -> efit ts tout tgy tenv e2 = true -> edom vs vo vg ve e2 ->
  good tenv ve (mean_expr keep e1 e2) (reduced_shape keep ax sh) (mean_of keep ax sh x).
Proof.
  intros [T1 S1 V1 F1 G1] HM T2 V2 F2 G2. constructor.
  - eapply mean_ety; eauto.
  - apply mean_shape.
  - eapply mean_eeval; eauto.
  - cbn [efitb mean_expr]. rewrite F1, F2, T1, T2. cbn [op_fit]. rewrite (mean_fit axes sh) by eauto. reflexivity.
  - intros d. cbn [edomb mean_expr]. repeat split; auto. intros. right. split; [reflexivity|]. exact I.
Qed.
Lemma good_let tenv ve e body s0 x sh y : good tenv ve e s0 x -> good (TyA s0 :: tenv) (TA x :: ve) body sh y -> good tenv ve (ELet e body) sh y.
Proof.
  intros [T1 S1 V1 F1 G1] [T2 S2 V2 F2 G2]. constructor; auto.
  - cbn [ety]. rewrite T1. exact T2.
  - cbn [eeval]. rewrite V1. exact V2.
  - cbn [efitb]. rewrite F1, T1. exact F2.
  - intros d. cbn [edomb]. split; auto. intros v Hv. rewrite V1 in Hv. inv Hv. auto.
Qed.
Lemma good_let_ints tenv ve l body sh y : good (TyI l :: tenv) (TI l :: ve) body sh y -> good tenv ve (ELet (EInts l) body) sh y.
Proof.
  intros [T2 S2 V2 F2 G2]. constructor; auto. intros d. split; [exact I|]. intros v Hv. inv Hv. auto.
Qed.
End Good.

(** ** The composite operations *)
Section Comps.
Variables (tout tgy : ty) (vo vg : tv).
Lemma group_mem keep ax sh i j : In j (group_at keep ax sh i) -> in_bounds sh j /\ reduced_index keep ax j = i.
Proof. intros H. apply filter_In in H. destruct H as [H1 H2]. apply indices_in in H1. apply shape_eqb_ok in H2. auto. Qed.
(** Deviations from the mean, and their squares averaged. *)
Definition dev ax sh x := zip_tab Sub sh sh (fill_axes 1 ax sh) x (mean_of true ax sh x).
Lemma dev_at axes ax sh x j : mean_axes axes sh = Some ax -> has_shape sh x -> in_bounds sh j ->
  rget (dev ax sh x) j = rget x j - avg (map (rget x) (group_at true ax sh (fill_axes 0 ax j))).
Proof.
  intros HM Hx Hj. unfold dev, zip_tab. rewrite aget_tab by exact Hj. cbn [bin]. rewrite bc_idx_self, bc_idx_fill by exact Hj.
  rewrite (mean_at true axes ax) by (auto; apply fill_in_bounds; exact Hj). reflexivity.
Qed.
Lemma var_at keep axes ax sh x i : mean_axes axes sh = Some ax -> has_shape sh x -> in_bounds (reduced_shape keep ax sh) i ->
  rget (mean_of keep ax sh (amap (un Square) (dev ax sh x))) i = variance (map (rget x) (group_at keep ax sh i)).
Proof.
  intros HM Hx Hi. assert (Hd : has_shape sh (dev ax sh x)) by apply zip_tab_shape.
  assert (Hs : has_shape sh (amap (un Square) (dev ax sh x))) by (rewrite (amap_tab _ sh) by exact Hd; apply tab_has_shape).
  rewrite (mean_at keep axes ax) by auto. unfold variance. f_equal. rewrite map_map. apply map_ext_in. intros j Hj.
  apply group_mem in Hj. destruct Hj as [Hj <-]. rewrite (amap_tab _ sh) by exact Hd. rewrite aget_tab by exact Hj. cbn [un].
  rewrite (dev_at axes ax) by auto. pose proof HM as HM'. apply mean_axes_spec in HM'. destruct HM' as (HA & _). destruct (axes_bound _ _ _ HA) as (HF & _ & ND).
  rewrite group_same by auto. reflexivity.
Qed.
Lemma avg_nonneg l : (forall a, In a l -> 0 <= a) -> 0 <= avg l.
Proof.
  intros H. unfold avg. assert (0 <= fold_right Rplus 0 l).
  { induction l as [|a l IH]; simpl; [lra|]. assert (0 <= a) by (apply H; simpl; auto). assert (0 <= fold_right Rplus 0 l) by (apply IH; intros; apply H; simpl; auto). lra. }
  destruct l as [|a l]; [simpl; unfold Rdiv; rewrite Rmult_0_l; lra|]. apply Rmult_le_pos; [assumption|]. left. apply Rinv_0_lt_compat. apply lt_0_INR. simpl. lia.
Qed.
Lemma variance_nonneg l : 0 <= variance l.
Proof. apply avg_nonneg. intros a Ha. apply in_map_iff in Ha. destruct Ha as (b & <- & _). apply Rle_0_sqr. Qed.
Lemma nth_in_tab (f : list nat -> R) sh a : In a (a_data (tab sh f)) -> exists i, in_bounds sh i /\ a = f i.
Proof. intros H. apply in_map_iff in H. destruct H as (i & <- & Hi). apply indices_in in Hi. eauto. Qed.
Lemma shape_reduced keep ax sh : reduced_shape keep ax sh = if keep then fill_axes 1 ax sh else drop_axes ax sh.
Proof. reflexivity. Qed.

Definition value_of (c : comp) (shs : list (list nat)) (out : list nat) (xs : list (arr R)) : Prop :=
  good (map TyA shs) tout tgy (map TA xs) vo vg (comp_dom c xs) [] [] (comp_expr c) out (tab out (comp_at c xs)).

Lemma dev_good ts vs D tenv ve i sh axes ax x e2 : nth_error ts i = Some (TyA sh) -> nth_error vs i = Some (TA x) -> has_shape sh x ->
  mean_axes axes sh = Some ax ->
  ety ts tout tgy tenv e2 = Some (TyI axes) -> eeval vs vo vg ve e2 = Some (TI axes) -> efit ts tout tgy tenv e2 = true -> edom vs vo vg ve e2 ->
  good ts tout tgy vs vo vg D tenv ve (EBin Sub (EIn i) (mean_expr true (EIn i) e2)) sh (dev ax sh x).
Proof.
  intros. apply (good_bin ts tout tgy vs vo vg D tenv ve Sub _ _ sh (fill_axes 1 ax sh) sh x (mean_of true ax sh x)).
  - apply good_in; auto.
  - apply (good_mean ts tout tgy vs vo vg D tenv ve true (EIn i) e2 sh axes ax x); auto. apply good_in; auto.
  - eapply arith_ty_fill; eauto.
  - reflexivity.
  - intros. exact I.
Qed.
Lemma normalize_good ts vs D tenv ve axes ax sh x : nth_error ts 0 = Some (TyA sh) -> nth_error vs 0 = Some (TA x) -> has_shape sh x ->
  mean_axes axes sh = Some ax ->
  good ts tout tgy vs vo vg D tenv ve (normalize_expr axes) sh (tab sh (normalized ax x)).
Proof.
  intros HT HV Hx HM. pose proof HM as HM'. apply mean_axes_spec in HM'. destruct HM' as (HA & NE & _). destruct (axes_bound _ _ _ HA) as (HF & _ & ND).
  pose proof (dev_good ts vs D (TyI axes :: tenv) (TI axes :: ve) 0 sh axes ax x (EVar 0) HT HV Hx HM eq_refl eq_refl eq_refl I) as GD.
  set (d := dev ax sh x) in *.
  assert (Hd : has_shape sh d) by apply (g_sh _ _ _ _ _ _ _ _ _ _ _ _ GD).
  assert (Hs : has_shape sh (amap (un Square) d)) by (rewrite (amap_tab _ sh) by exact Hd; apply tab_has_shape).
  set (tenv' := TyA sh :: TyI axes :: tenv). set (ve' := TA d :: TI axes :: ve).
  assert (GV : good ts tout tgy vs vo vg D tenv' ve' (EVar 0) sh d) by (apply good_var; auto).
  assert (NF : nonempty (fill_axes 1 ax sh) = true) by (apply (reduced_nonempty true axes ax sh HA NE)).
  pose proof (good_un ts tout tgy vs vo vg D tenv' ve' Square _ _ _ GV NE eq_refl (fun _ => proj2 (List.Forall_forall _ _) (fun _ _ => I))) as GS.
  pose proof (good_mean ts tout tgy vs vo vg D tenv' ve' true (EUn Square (EVar 0)) (EVar 1) sh axes ax _ GS HM eq_refl eq_refl eq_refl I) as GM.
  change (reduced_shape true ax sh) with (fill_axes 1 ax sh) in GM. set (m := mean_of true ax sh (amap (un Square) d)) in *.
  pose proof (good_bin ts tout tgy vs vo vg D tenv' ve' Add _ _ (fill_axes 1 ax sh) [] (fill_axes 1 ax sh) m _ GM (good_scalar ts tout tgy vs vo vg D tenv' ve' (1 / 100000))
    (proj1 (arith_ty_scalar _ NF)) eq_refl (fun _ _ _ => I)) as GA.
  set (w := zip_tab Add _ _ _ _ _) in GA.
  assert (Hw : forall i, in_bounds (fill_axes 1 ax sh) i -> rget w i = variance (map (rget x) (group_at true ax sh i)) + 1 / 100000).
  { intros i Hi. unfold w, zip_tab. rewrite aget_tab by exact Hi. cbn [bin]. rewrite bc_idx_self, bc_idx_nil by exact Hi. unfold m, d.
    rewrite (var_at true axes ax sh x i HM Hx Hi). reflexivity. }
  assert (Pw : List.Forall (un_dom InvSqrt) (a_data w)).
  { apply List.Forall_forall. intros a Ha. apply nth_in_tab in Ha. destruct Ha as (i & Hi & ->). specialize (Hw i Hi). unfold w, zip_tab in Hw. rewrite aget_tab in Hw by exact Hi.
    rewrite Hw. simpl. pose proof (variance_nonneg (map (rget x) (group_at true ax sh i))). lra. }
  pose proof (good_un ts tout tgy vs vo vg D tenv' ve' InvSqrt _ _ _ GA NF eq_refl (fun _ => Pw)) as GI.
  pose proof (good_bin ts tout tgy vs vo vg D tenv' ve' Mul _ _ sh (fill_axes 1 ax sh) sh d _ GV GI (arith_ty_fill axes ax sh HM) eq_refl (fun _ _ _ => I)) as GP.
  assert (EQ : zip_tab Mul sh sh (fill_axes 1 ax sh) d (amap (un InvSqrt) w) = tab sh (normalized ax x)).
  { apply tab_ext. intros j Hj. cbn [bin]. rewrite bc_idx_self, bc_idx_fill by exact Hj. unfold normalized, group. rewrite (hs_sh _ _ Hx). cbn [reduced_index].
    unfold d at 1. rewrite (dev_at axes ax sh x j HM Hx Hj). rewrite (amap_tab _ (fill_axes 1 ax sh)) by (apply zip_tab_shape).
    assert (Hj' : in_bounds (fill_axes 1 ax sh) (fill_axes 0 ax j)) by (apply fill_in_bounds; exact Hj).
    rewrite aget_tab by exact Hj'. rewrite (Hw _ Hj'). reflexivity. }
  rewrite EQ in GP. unfold normalize_expr. apply good_let_ints. exact (good_let ts tout tgy vs vo vg D _ _ _ _ _ _ _ _ GD GP).
Qed.
Lemma shape_refl sh : shape_eqb sh sh = true.
Proof. apply shape_eqb_ok. reflexivity. Qed.
Lemma sum_op_good ts vs D tenv ve i sh x : nth_error ts i = Some (TyA sh) -> nth_error vs i = Some (TA x) -> has_shape sh x ->
  good ts tout tgy vs vo vg D tenv ve (EOp1 TSumAll SNone (EIn i)) [] (sum_all 0 Rplus x) /\
  good ts tout tgy vs vo vg D tenv ve (EOp1 TSize SNone (EIn i)) [] (Arr [] [INR (prod (a_shape x))]).
Proof.
  intros HT HV Hx. split; constructor; cbn [ety eeval efitb edomb]; rewrite ?HT, ?HV; auto; try (split; reflexivity);
    intros _; split; auto; intros v Hv; inv Hv; [right|left]; repeat split.
Qed.
Lemma last_axis n ax : axes_of n [(-1)%Z] = Some ax -> ax = [(n - 1)%nat].
Proof.
  unfold axes_of. cbn [normalize_axes]. destruct (Z.ltb_spec (-1) 0); [|lia]. destruct (Z.ltb_spec (Z.of_nat n + -1) 0); [discriminate|].
  destruct (forallb _ _ && distinctb _); [|discriminate]. intros E. inv E. f_equal. lia.
Qed.
Lemma comp_good c shs out xs : comp_shape c shs = Some out -> Forall2 has_shape shs xs -> value_of c shs out xs.
Proof.
  intros HC HX. unfold value_of. destruct c; simpl in HC.
  - destruct shs as [|sh [|]]; try discriminate. inv HX. inv H3. rename y into x. destruct (mean_axes axes sh) as [ax|] eqn:HM; [|discriminate]. inv HC.
    pose proof HM as HM'. apply mean_axes_spec in HM'. destruct HM' as (HA & NE & _).
    eapply good_eq; [|apply (good_mean _ tout tgy _ vo vg _ [] [] keep (EIn 0) (EInts axes) sh axes ax x); auto; [apply good_in; auto|exact I]].
    apply tab_eq; [apply mean_shape|]. intros i Hi. rewrite (mean_at keep axes ax) by auto. simpl. unfold group. rewrite (hs_sh _ _ H1), HA. reflexivity.
  - destruct shs as [|sh [|]]; try discriminate. inv HX. inv H3. rename y into x. destruct (nonempty sh) eqn:NE; [|discriminate]. inv HC.
    destruct (sum_op_good [TyA sh] [TA x] (comp_dom CMeanAll [x]) [] [] 0 sh x eq_refl eq_refl H1) as [G1 G2]. apply nonempty_prod in NE.
    eapply good_eq; [|apply (good_bin _ tout tgy _ vo vg _ [] [] Div _ _ [] [] [] _ _ G1 G2 eq_refl eq_refl)].
    + unfold zip_tab, tab, sum_all. cbn [indices map]. rewrite (hs_sh _ _ H1). unfold aget, bc_idx. simpl. unfold avg. rewrite fold_symmetric by (intros; ring || (apply Rplus_comm)).
      destruct H1 as [_ ->]. reflexivity.
    + intros _ i Hi. cbn [bin_dom]. rewrite bc_idx_nil. unfold aget. simpl. rewrite (hs_sh _ _ H1). apply not_0_INR. exact NE.
  - destruct shs as [|sh [|]]; try discriminate. inv HX. inv H3. rename y into x. destruct (mean_axes axes sh) as [ax|] eqn:HM; [|discriminate]. inv HC.
    pose proof HM as HM'. apply mean_axes_spec in HM'. destruct HM' as (HA & NE & _).
    pose proof (dev_good [TyA sh] [TA x] (comp_dom (CVariance keep axes) [x]) [] [] 0 sh axes ax x (EInts axes) eq_refl eq_refl H1 HM eq_refl eq_refl eq_refl I) as GD.
    pose proof (good_un _ tout tgy _ vo vg _ [] [] Square _ _ _ GD NE eq_refl (fun _ => proj2 (List.Forall_forall _ _) (fun _ _ => I))) as GS.
    eapply good_eq; [|apply (good_mean _ tout tgy _ vo vg _ [] [] keep _ (EInts axes) sh axes ax _ GS); auto; exact I].
    apply tab_eq; [apply mean_shape|]. intros i Hi. rewrite (var_at keep axes ax) by auto. simpl. unfold group. rewrite (hs_sh _ _ H1), HA. reflexivity.
  - destruct shs as [|sh [|]]; try discriminate. inv HX. inv H3. rename y into x. destruct (nonempty sh) eqn:NE; [|discriminate]. inv HC. rename out into sh.
    assert (GI : good [TyA sh] tout tgy [TA x] vo vg (comp_dom (CLeakyRelu alpha) [x]) [] [] (EIn 0) sh x) by (apply good_in; auto).
    pose proof (good_bin _ tout tgy _ vo vg _ [] [] Mul _ _ [] sh sh _ _ (good_scalar _ tout tgy _ vo vg _ [] [] alpha) GI (proj2 (arith_ty_scalar sh NE)) eq_refl (fun _ _ _ => I)) as GM.
    assert (HB : bin_ty Maximum sh sh = Some sh).
    { simpl. unfold cmp_ty. rewrite NE, shape_refl. simpl. destruct (shape_eqb sh []); reflexivity. }
    assert (HM : forall i, in_bounds sh i -> rget (zip_tab Mul sh [] sh (Arr [] [alpha]) x) i = alpha * rget x i).
    { intros i Hi. unfold zip_tab. rewrite aget_tab by exact Hi. rewrite bc_idx_nil, bc_idx_self by exact Hi. reflexivity. }
    eapply good_eq; [|apply (good_bin _ tout tgy _ vo vg _ [] [] Maximum _ _ sh sh sh _ _ GI GM HB)].
    + apply tab_ext. intros i Hi. rewrite bc_idx_self by exact Hi. rewrite HM by exact Hi. reflexivity.
    + simpl. apply shape_refl.
    + intros HD i Hi. cbn [bin_dom]. rewrite bc_idx_self by exact Hi. rewrite HM by exact Hi. simpl in HD. rewrite List.Forall_forall in HD. apply HD.
      apply nth_In. rewrite (proj2 H1), (hs_sh _ _ H1). apply ravel_lt. exact Hi.
  - destruct shs as [|s0 [|s1 [|]]]; try discriminate. destruct (shape_eqb s0 s1) eqn:ES; [|discriminate]. apply shape_eqb_ok in ES. subst s1.
    inv HX. inv H3. inv H5. rename y into x. rename y0 into t. destruct (mean_axes [(-1)%Z] s0) as [ax|] eqn:HM; [|discriminate]. inv HC.
    pose proof HM as HM'. apply mean_axes_spec in HM'. destruct HM' as (HA & NE & _). pose proof (last_axis _ _ HA) as ->.
    assert (GX : good [TyA s0; TyA s0] tout tgy [TA x; TA t] vo vg (comp_dom CMse [x; t]) [] [] (EIn 0) s0 x) by (apply good_in; auto).
    assert (GT : good [TyA s0; TyA s0] tout tgy [TA x; TA t] vo vg (comp_dom CMse [x; t]) [] [] (EIn 1) s0 t) by (apply good_in; auto).
    pose proof (good_bin _ tout tgy _ vo vg _ [] [] Sub _ _ s0 s0 s0 _ _ GX GT (arith_ty_self s0 NE) eq_refl (fun _ _ _ => I)) as GD.
    pose proof (good_un _ tout tgy _ vo vg _ [] [] Square _ _ _ GD NE eq_refl (fun _ => proj2 (List.Forall_forall _ _) (fun _ _ => I))) as GS.
    eapply good_eq; [|apply (good_mean _ tout tgy _ vo vg _ [] [] false _ (EInts [(-1)%Z]) s0 [(-1)%Z] _ _ GS); auto; exact I].
    apply tab_eq; [apply mean_shape|]. intros i Hi. rewrite (mean_at false [(-1)%Z] _ s0) by (auto; apply (g_sh _ _ _ _ _ _ _ _ _ _ _ _ GS)).
    simpl. rewrite (hs_sh _ _ H1). f_equal. apply map_ext_in. intros j Hj. apply group_mem in Hj. destruct Hj as [Hj _].
    rewrite (amap_tab _ s0) by apply zip_tab_shape. rewrite aget_tab by exact Hj. unfold zip_tab. rewrite aget_tab by exact Hj. rewrite bc_idx_self by exact Hj. reflexivity.
  - destruct shs as [|sh [|]]; try discriminate. inv HX. inv H3. rename y into x. destruct (mean_axes axes sh) as [ax|] eqn:HM; [|discriminate]. inv HC.
    pose proof HM as HM'. apply mean_axes_spec in HM'. destruct HM' as (HA & NE & _).
    eapply good_eq; [|apply (normalize_good [TyA out] [TA x] _ [] [] axes ax out x); auto].
    apply tab_ext. intros i Hi. simpl. rewrite (hs_sh _ _ H1), HA. reflexivity.
  - destruct shs as [|[|n [|c [|]]] [|s1 [|s2 [|]]]]; try discriminate. destruct (shape_eqb s1 [1%nat; c]) eqn:E1; [|discriminate].
    destruct (shape_eqb s2 [1%nat; c]) eqn:E2; [|discriminate]. apply shape_eqb_ok in E1. apply shape_eqb_ok in E2. subst. cbn [andb] in HC.
    destruct (mean_axes [0%Z] [n; c]) as [ax|] eqn:HM; [|discriminate]. inv HC. inv HX. inv H3. inv H5. inv H6. rename y into x. rename y0 into sc. rename y1 into sf.
    pose proof HM as HM'. apply mean_axes_spec in HM'. destruct HM' as (HA & NE & _). assert (EA : ax = [0%nat]) by (vm_compute in HA; congruence). subst ax.
    set (ts := [TyA [n; c]; TyA [1%nat; c]; TyA [1%nat; c]]). set (vs := [TA x; TA sc; TA sf]).
    pose proof (normalize_good ts vs (comp_dom CBatchNorm [x; sc; sf]) [] [] [0%Z] [0%nat] [n; c] x eq_refl eq_refl H1 HM) as GN.
    assert (GS : good ts tout tgy vs vo vg (comp_dom CBatchNorm [x; sc; sf]) [] [] (EIn 1) [1%nat; c] sc) by (apply good_in; auto).
    assert (GF : good ts tout tgy vs vo vg (comp_dom CBatchNorm [x; sc; sf]) [] [] (EIn 2) [1%nat; c] sf) by (apply good_in; auto).
    assert (HB : arith_ty [n; c] [1%nat; c] = Some [n; c]).
    { apply arith_ty_wide; auto; [discriminate|]. simpl. rewrite Nat.eqb_refl, orb_true_r. reflexivity. }
    pose proof (good_bin _ tout tgy _ vo vg _ [] [] Mul _ _ _ _ _ _ _ GN GS HB eq_refl (fun _ _ _ => I)) as GM.
    pose proof (good_bin _ tout tgy _ vo vg _ [] [] Add _ _ _ _ _ _ _ GM GF HB eq_refl (fun _ _ _ => I)) as GA.
    eapply good_eq; [|exact GA]. apply tab_ext. intros i Hi.
    assert (EC : bc_idx [1%nat; c] i = [0%nat; nth 1 i 0%nat]).
    { clear - Hi. destruct i as [|a [|b [|]]]; try (exfalso; apply in_bounds_length in Hi; simpl in Hi; lia).
      inversion Hi as [|? ? ? ? A B]; subst. inversion B as [|? ? ? ? A' B']; subst. unfold bc_idx. simpl. f_equal. destruct (c =? 1)%nat eqn:E; [|reflexivity]. apply Nat.eqb_eq in E. f_equal. lia. }
    rewrite EC, bc_idx_self by exact Hi. unfold zip_tab. rewrite aget_tab by exact Hi. rewrite EC, bc_idx_self by exact Hi. rewrite aget_tab by exact Hi. reflexivity.
Qed.
End Comps.
