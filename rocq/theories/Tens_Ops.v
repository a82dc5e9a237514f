(** Every operation's rule, used where it fits, is the transpose of its derivative. *)
From Coq Require Import String List Arith ZArith NArith Bool Lia Reals Lra.
From Coquelicot Require Import Coquelicot.
Import ListNotations.
From Verif Require Import Graph_Model Eval_Model Eval_Spec Eval_Proofs Graph_Proofs Grad_Model Grad_Spec
  Scalar_Model Scalar_Spec Scalar_Rules Scalar_Proofs.
From Verif Require Import Array_Model Array_Proofs Array_Sum Arith_Model Arith_Proofs Arith_Final Vjp_Spec Vjp_Proofs
  Reduce_Model Reduce_Spec Reduce_Proofs Mean_Model Shape_Model Shape_Spec Shape_Proofs3
  Dot_Model Dot_Proofs Softmax_Model Softmax_Spec Softmax_Proofs Softmax_Proofs2 Softmax_Proofs3 Softmax_Xent
  Tens_Model Tens_Spec Tens_Fwd Tens_Fwd2 Tens_Build Tens_Rules Tens_Rules2 Tens_Rules3 Tens_Rules4 Tens_Rules5 Tens_Rules6 Tens_Rules7 Tens_Rules8.
Local Set Bullet Behavior "Strict Subproofs".
Local Open Scope R_scope.

(** ** Every operation *)
Lemma no_rule_nil (p : nat) (e : expr) : nth_error (@nil (option expr)) p <> Some (Some e).
Proof. destruct p; discriminate. Qed.
Lemma no_rule_one (p : nat) (e : expr) : nth_error [@None expr] p <> Some (Some e).
Proof. destruct p as [|[|p]]; discriminate. Qed.
Lemma axes_named n axes ax : axes_of n axes = Some ax -> negb (length axes =? 0)%nat = true -> ax <> [].
Proof.
  intros H N ->. apply axes_bound in H. destruct H as (_ & L & _). simpl in L. rewrite L in N. discriminate.
Qed.
Lemma op_correct o ts vs sh out : op_ty o ts = Some (TyA sh) -> op_fit o ts = true -> Forall2 has_ty vs ts ->
  tcompute o vs = Some (TA out) -> exists K, correct o ts vs sh out K.
Proof.
  intros HT HF HV HC.
  assert (const : (forall rs p e, trule o (length ts) = Some rs -> nth_error rs p <> Some (Some e)) ->
    (exists c, forall ws, Forall2 has_ty ws ts -> run o ws = c) -> exists K, correct o ts vs sh out K).
  { intros A B. eexists. apply const_correct; auto. }
  destruct o; cbn [op_ty option_map] in HT; try discriminate.
  - (* TScalar *) destruct ts; [|discriminate]. apply const; [intros rs p e H; inv H; apply no_rule_one|].
    eexists. intros ws Hw. inv Hw. reflexivity.
  - destruct ts; [|discriminate]. apply const; [intros rs p e H; inv H; apply no_rule_nil|].
    eexists. intros ws Hw. inv Hw. reflexivity.
  - destruct ts; discriminate.
  - destruct ts as [|[] []]; discriminate.
  - destruct ts as [|[s|] []]; try discriminate. apply const; [intros rs p e H; inv H; apply no_rule_one|].
    exists (Arr [] [INR (prod s)]). intros ws Hw. inv_tys. unfold run; simpl. do 4 f_equal. eauto using hs_sh.
  - destruct ts as [|[|a] [|[|b] [|]]]; try discriminate. destruct (dims a); [|discriminate]. destruct (dims b); [|discriminate].
    destruct (infer_shape l l0); discriminate.
  - destruct ts as [|[|l] [|]]; try discriminate. apply const; [intros rs p e H; inv H; apply no_rule_one|].
    eexists. intros ws Hw. inv_tys. reflexivity.
  - destruct ts as [|[|l] [|]]; try discriminate. apply const; [intros rs p e H; inv H; apply no_rule_one|].
    eexists. intros ws Hw. inv_tys. reflexivity.
  - destruct ts as [|[g|] [|[|l] [|]]]; try discriminate. destruct (dims l) as [o|] eqn:ED; [|discriminate].
    destruct (reduces_to o g) eqn:ER; inv HT. inv_tys. eapply mreduce_correct; eauto.
  - destruct ts as [|[g|] [|[|l] [|]]]; try discriminate. destruct (dims l) as [o|] eqn:ED; [|discriminate].
    destruct (reduces_to g o) eqn:ER; inv HT. inv_tys. eapply mbroadcast_correct; eauto.
  - destruct ts as [|[g|] [|]]; try discriminate. inv HT. inv_tys. eapply sumall_correct; eauto.
  - destruct ts as [|[[|]|] [|[|l] [|]]]; try discriminate. destruct (dims l) as [o|] eqn:ED; inv HT. inv_tys. eapply sumallgrad_correct; eauto.
  - eapply addn_correct; eauto.
  - destruct ts as [|[g|] [|]]; try discriminate. inv HT. eexists. constructor.
    + intros rs p e H Hp. inv H. destruct p as [|[|p]]; discriminate.
    + intros. instantiate (1 := fun _ _ _ => 0). reflexivity.
    + intros [].
  - destruct ts as [|[g|] [|]]; try discriminate. inv HT. inv_tys. simpl in HC. inv HC. apply un_correct; auto.
  - destruct ts as [|[s0|] [|[s1|] [|]]]; try discriminate. destruct (bin_ty b s0 s1) as [r|] eqn:EB; inv HT. inv_tys.
    cbn [tcompute] in HC. erewrite bin_arr_ok in HC; [|eauto|eauto|exact EB]. inv HC. eapply bin_correct; eauto.
  - simpl in HF. destruct ta; [discriminate|]. destruct tb; [discriminate|].
    destruct ts as [|[[|a0 [|a1 [|]]]|] [|[[|b0 [|b1 [|]]]|] [|]]]; try discriminate.
    destruct (Nat.eqb_spec a1 b0); inv HT. inv_tys. cbn [tcompute] in HC.
    erewrite (matmul_mat false false a0 b0 b1) in HC by (apply hs_sh; auto). inv HC. apply matmul_correct; auto.
  - destruct ts as [|[g|] [|[|l] [|]]]; try discriminate. destruct (shape_eqb g [0%nat]) eqn:E0; [discriminate|].
    destruct (axes_of (length g) l) as [ax|] eqn:EA; inv HT. inv_tys. eapply reducesum_correct; eauto.
    intros ->. discriminate E0.
  - destruct ts as [|[g|] [|[|l] [|]]]; try discriminate. destruct (reshape_dims (prod g) l l) as [o|] eqn:ER; [|discriminate].
    destruct (Nat.eqb_spec (prod g) (prod o)); inv HT. inv_tys. eapply reshape_correct; eauto.
  - destruct ts as [|[g|] [|[|l] [|]]]; try discriminate. destruct (perm_of (length g) invert l) as [q|] eqn:EP; inv HT. inv_tys.
    eapply transpose_correct; eauto.
  - destruct ts as [|[g|] [|]]; try discriminate. destruct (axis_of (length g) axis) as [k|] eqn:EA; inv HT. inv_tys.
    cbn [tcompute] in HC. simpl in HF.
    match goal with H : has_shape sh ?a |- _ => pose proof (hs_sh _ _ H) as ES; pose proof (axis_of_ok _ _ _ EA) as NA;
      rewrite (softmax_smax minv axis a k) in HC by (first [eapply hs_wf; eassumption|rewrite ES; exact NA]) end.
    inv HC. eapply softmax_correct; eauto.
  - (* TReduceMean *) destruct ts as [|[g|] [|[|l] [|]]]; try discriminate. destruct (axes_of (length g) l) as [ax|] eqn:EA; [|discriminate].
    destruct (nonempty g) eqn:NE; [|discriminate]. destruct (N.leb_spec (N.of_nat (group_size ax g)) (2 ^ 24)%N) as [L|L]; [|discriminate]. inv HT. inv_tys.
    eapply mean_correct; eauto. eapply axes_named; eauto.
  - (* TReduceProd *) destruct ts as [|[g|] [|[|l] [|]]]; try discriminate. destruct (shape_eqb g [0%nat]) eqn:E0; [discriminate|].
    destruct (axes_of (length g) l) as [ax|] eqn:EA; inv HT. inv_tys. cbn [op_fit] in HF. apply andb_prop in HF. destruct HF as [HF N1]. apply andb_prop in HF. destruct HF as [HF NE].
    pose proof (axes_named _ _ _ EA HF) as NA. cbn [tcompute] in HC.
    rewrite (reduce_folded Rmult 1 mul_assoc mul_comm mul_one keep l ax g) in HC by (auto; intros ->; discriminate E0). inv HC.
    eapply prod_correct; eauto. intros ->. discriminate N1.
  - (* TReduceExt *) destruct ts as [|[g|] [|[|l] [|]]]; try discriminate. destruct (shape_eqb g [0%nat]) eqn:E0; [discriminate|].
    destruct (axes_of (length g) l) as [ax|] eqn:EA; inv HT. inv_tys. cbn [op_fit] in HF. apply andb_prop in HF. destruct HF as [HF NE].
    pose proof (axes_named _ _ _ EA HF) as NA. cbn [tcompute] in HC.
    rewrite (reduce_folded _ init (ext_assoc mx) (ext_comm mx) (ext_idem mx init) keep l ax g) in HC by (auto; intros ->; discriminate E0). inv HC.
    eapply ext_correct; eauto.
  - (* TGatherI *) destruct ts as [|[|idx] [|[|l] [|]]]; try discriminate. destruct (gather 0%Z true 0 (vecZ idx) (vecZ l)); discriminate.
  - (* TProdI *) destruct ts as [|[|[|d l]] [|[|[|[| |] [|]]] [|]]]; try discriminate. apply const.
    + intros rs p e H. inv H. destruct p as [|[|[|p]]]; discriminate.
    + eexists. intros ws Hw. inv_tys. reflexivity.
  - (* TIndex *) destruct ts as [|[g|] [|]]; try discriminate. destruct (elem_pos (prod g) i) as [k|] eqn:E; inv HT. inv_tys. eapply index_correct; eauto.
  - (* TExpandDims *) destruct ts as [|[g|] [|[|l] [|]]]; try discriminate. destruct (plain_indices l) as [ax|] eqn:EP; [|discriminate].
    destruct (expand_shape (length g) (sortZ l) g) as [o|]; [|discriminate]. destruct (unit_axesb ax g o) eqn:EU; inv HT. inv_tys. eapply expand_correct; eauto.
  - (* TSqueeze *) destruct ts as [|[g|] [|[|l] [|]]]; try discriminate. destruct (plain_indices l) as [ax|] eqn:EP; [|discriminate].
    destruct (unit_axesb ax (drop_axes ax g) g) eqn:EU; inv HT. inv_tys. eapply squeeze_correct; eauto.
  - (* TLogSoftmax *) destruct ts as [|[g|] [|]]; try discriminate. cbn [op_fit] in HF. destruct (axis_of (length g) axis) as [k|] eqn:EA; [|discriminate].
    apply Nat.eqb_eq in HF. subst k. destruct (nonempty g) eqn:NE; inv HT. inv_tys. cbn [tcompute] in HC.
    match goal with H : has_shape sh ?a |- _ => pose proof (hs_sh _ _ H) as ES; pose proof (axis_of_ok _ _ _ EA) as NA;
      rewrite (log_softmax_run minv axis a 1) in HC by (first [eapply hs_wf; eassumption|rewrite ES; first [exact NA|apply nonempty_prod; exact NE]]) end.
    inv HC. eapply log_softmax_correct; eauto.
  - (* TLogSumExp *) destruct keep; [|destruct ts as [|[] []]; discriminate]. destruct ts as [|[g|] [|]]; try discriminate.
    destruct (axis_of (length g) axis) as [k|] eqn:EA; [|discriminate]. destruct (nonempty g) eqn:NE; inv HT. inv_tys. eapply logsumexp_correct; eauto.
  - (* TSigmoidXent *) destruct ts as [|[s0|] [|[s1|] [|]]]; try discriminate. unfold same_ty in HT. destruct (shape_eqb s0 s1) eqn:E; inv HT. apply shape_eqb_ok in E. subst s1.
    inv_tys. cbn [op_fit] in HF. apply andb_prop in HF. destruct HF as [NE N1]. cbn [tcompute] in HC.
    match goal with Q : has_shape _ ?x, Q' : has_shape _ ?t, HC : otA (sigmoid_xent exp ?x ?t) = _ |- _ =>
      pose proof (hs_sh _ _ Q) as Sx; pose proof (hs_sh _ _ Q') as St; rewrite (sigmoid_xent_run x t) in HC; [|eapply hs_wf; exact Q|eapply hs_wf; exact Q'|congruence] end.
    clear Sx St. inv HC. apply sigmoid_correct; auto. intros ->. discriminate N1.
  - (* TSparseXent *) destruct ts as [|[[|n [|c [|]]]|] [|[|t'] [|]]]; try discriminate. destruct (nonempty [n; c]) eqn:NE; [|discriminate].
    destruct (labels_ok n c t') eqn:EL; inv HT. inv_tys. eapply sparse_correct; eauto.
  - (* TSlice *) destruct ts as [|[g|] [|]]; try discriminate. destruct (ranges g sl) as [rs|] eqn:E; inv HT. inv_tys. apply slice_correct; auto.
  - (* TSplit *) destruct ts as [|[g|] [|]]; try discriminate. destruct (split_ranges g axis lo hi) as [rs|] eqn:E; inv HT. inv_tys. apply split_correct; auto.
  - (* TTile *) destruct ts as [|[g|] [|]]; try discriminate. cbn [op_fit] in HF. destruct (axis_of (length g) axis) as [k|] eqn:EA; [|discriminate].
    destruct (Nat.ltb_spec 0 num) as [L|]; inv HT. inv_tys. apply Nat.eqb_eq in HF. rewrite HF, Nat.mul_1_r. eapply tile_correct; eauto.
  - (* TConv *) destruct ts as [|[sx|] [|[sw|] [|]]]; try discriminate. destruct (conv_ty p s d sx sw) as [sy|] eqn:E; inv HT. inv_tys. eapply conv_correct; eauto.
  - (* TConvT *) destruct ts as [|[sy|] [|[sw|] [|]]]; try discriminate. destruct (deconv_ty checked p s d sy sw) as [sx|] eqn:E; inv HT. inv_tys. eapply deconv_correct; eauto.
  - (* TPool *) destruct ts as [|[sx|] [|]]; try discriminate. destruct (pool_ty p s size sx) as [sy|] eqn:E; inv HT. inv_tys. eapply pool_correct; eauto.
Qed.
